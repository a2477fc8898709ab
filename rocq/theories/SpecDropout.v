(** What dropout does to the encoding, said without the encoder: which
    occurrences of tokens get a random number, which one they get, and which
    cuts are left. *)
From Coq Require Import Sorted.
From Verif Require Import Base F64 Model SpecModel.
Set Implicit Arguments.

(** An occurrence of a token in a text: where it starts, how long it is. *)
Definition occurs (vocab : list scored_token) (s : bytes) (pos len : nat) : Prop :=
  0 < len /\ pos + len <= length s /\
  exists t, In t vocab /\ st_value t = firstn len (skipn pos s).

(** A cut of [s], the text from position [pos] on, that uses only occurrences
    in [keep]. *)
Inductive CutKept (vocab : list scored_token) (keep : nat -> nat -> Prop) : nat -> list N -> bytes -> Prop :=
| CutKept_nil pos : CutKept vocab keep pos [] []
| CutKept_cons pos id t ids s :
    latest vocab id t -> st_value t <> [] -> keep pos (length (st_value t)) ->
    CutKept vocab keep (pos + length (st_value t)) ids s ->
    CutKept vocab keep pos (id :: ids) (st_value t ++ s).

(** Occurrences in the order of reading: by start, then by length. *)
Definition before (a b : nat * nat) : Prop := fst a < fst b \/ fst a = fst b /\ snd a < snd b.

(** [drawn] lists, in the order of reading, the occurrences that get a random
    number; the [i]-th of them gets the [i]-th number.  An occurrence is kept
    when it is a single byte or its number is greater than [dropout]. *)
Definition kept (rnd : nat -> f64) (dropout : f64) (drawn : list (nat * nat)) (pos len : nat) : Prop :=
  len = 1 \/ exists i, nth_error drawn i = Some (pos, len) /\ fltb dropout (rnd i) = true.

(** The occurrences that get a number: those of at least two bytes, at the
    positions a cut of what precedes reaches. *)
Definition draws_for (vocab : list scored_token) (s : bytes) (rnd : nat -> f64) (dropout : f64)
    (drawn : list (nat * nat)) : Prop :=
  StronglySorted before drawn /\
  forall pos len, In (pos, len) drawn <->
    2 <= len /\ occurs vocab s pos len /\
    exists ids, CutKept vocab (kept rnd dropout drawn) 0 ids (firstn pos s).
