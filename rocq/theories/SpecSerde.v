(** What the documents of a tokenizer look like, declaratively. *)
From Verif Require Import Base F64 Model Processor SpecJson.
Set Implicit Arguments.

Definition members := list (bool * bytes * json).

(** Every key of the object is written without escapes and is one of [names]. *)
Definition keys_among (names : list string) (ms : members) : Prop :=
  Forall (fun m => fst (fst m) = true /\ exists n, In n names /\ snd (fst m) = B n) ms.
(** The values of the key [k], in order. *)
Definition values_of (k : string) (ms : members) : list json :=
  map snd (filter (fun m => bytes_eqb (snd (fst m)) (B k)) ms).
(** The key [k] always has a value that can be read by [R]; the last one is read as [a]; without one, [a] is [d]. *)
Definition Field {A} (k : string) (R : json -> A -> Prop) (ms : members) (d a : A) : Prop :=
  Forall (fun v => exists x, R v x) (values_of k ms) /\
  match rev (values_of k ms) with [] => a = d | v :: _ => R v a end.

Definition Is_string (v : json) (s : bytes) : Prop := exists p, v = JStr p s.
Definition Is_borrowed (v : json) (s : bytes) : Prop := v = JStr true s.
Definition Is_bool (v : json) (b : bool) : Prop := v = JBool b.
Definition Is_num (v : json) (x : f64) : Prop := v = JNum x.
Definition Is_some {A} (R : json -> A -> Prop) (v : json) (a : option A) : Prop :=
  match a with Some x => R v x | None => v = JNull end.
Definition Is_list {A} (R : json -> A -> Prop) (v : json) (l : list A) : Prop := exists vs, v = JArr vs /\ Forall2 R vs l.

Definition Is_token (v : json) (t : scored_token) : Prop :=
  exists ms text enc, v = JObj ms /\ keys_among ["value"; "score"; "encoded"; "keep"]%string ms /\
    Field "value" (Is_some Is_string) ms None (Some text) /\
    Field "score" (Is_some Is_num) ms None (Some (st_score t)) /\
    Field "encoded" Is_bool ms false enc /\
    Field "keep" Is_bool ms false (st_keep t) /\
    if enc then Base64 (st_value t) text else text = st_value t.

(** Any object whose [type]s, if any, are all the string crlf. *)
Definition Is_crlf (v : json) : Prop :=
  exists ms, v = JObj ms /\ Forall (fun m => fst (fst m) = true) ms /\
    Forall (fun w => Is_string w (B "crlf")) (values_of "type" ms).
Definition Is_form (v : json) (f : unicode_form) : Prop :=
  exists ms, v = JObj ms /\ Forall (fun m => fst (fst m) = true) ms /\
    Field "form" (fun v o => exists s, o = Some s /\ Is_string v s) ms None
      (Some (B match f with Nfc => "nfc" | Nfd => "nfd" | Nfkc => "nfkc" | Nfkd => "nfkd" end)).
Definition Is_processor (v : json) (p : processor) : Prop :=
  match p with
  | Crlf => Is_crlf v
  | Unicode f => ~ Is_crlf v /\ Is_form v f
  end.

Definition Is_tokenizer (v : json) (vocab : list scored_token) (ps : list processor) (sps : list bytes) : Prop :=
  exists ms, v = JObj ms /\ keys_among ["version"; "special_tokens"; "processors"; "vocab"]%string ms /\
    Field "version" (fun v o => exists s, o = Some s /\ Is_string v s) ms None (Some (B "2.0")) /\
    Field "special_tokens" (Is_list Is_borrowed) ms [] sps /\
    Field "processors" (Is_list Is_processor) ms [] ps /\
    Field "vocab" (Is_list Is_token) ms [] vocab.

(** The number printer and parser: the text of a finite number is a JSON number, and is read as [codec x]
    (ideally [x] itself; serde_json without float_roundtrip may be one unit in the last place off). *)
Definition num_codec (fmt_num : f64 -> bytes) (num_val : bytes -> option f64) (codec : f64 -> f64) : Prop :=
  forall x, f_is_finite x = true -> Number (fmt_num x) /\ num_val (fmt_num x) = Some (codec x).

(** Can [s] be written inside quotes as it is? *)
Definition needs_escape (b : byte) : Prop := b = x22 \/ b = x5c \/ (Byte.to_N b < 0x20)%N.
Definition unescaped (s : bytes) : Prop := Forall (fun b => ~ needs_escape b) s.
