(** Base64 (RFC 4648, section 4, without padding) and JSON texts (RFC 8259), declaratively. *)
From Coq Require Export String.
From Verif Require Import Base F64 SpecUtf8.
Set Implicit Arguments.
Notation length := List.length (only parsing).

(** An ASCII literal. *)
Definition B (s : string) : bytes := list_byte_of_string s.

(** ** Base64 *)
(** The [k] low bits of [n], most significant first. *)
Fixpoint bits (k : nat) (n : N) : list bool :=
  match k with 0 => [] | S k' => N.testbit n (N.of_nat k') :: bits k' n end.
Definition alphabet : bytes := B "ABCDEFGHIJKLMNOPQRSTUVWXYZabcdefghijklmnopqrstuvwxyz0123456789+/".
(** [cs] are the characters for the six-bit groups of the bits of [s], the last group filled up with zeros. *)
Definition Base64 (s cs : bytes) : Prop :=
  exists vals pad,
    Forall2 (fun v c => nth_error alphabet (N.to_nat v) = Some c) vals cs /\
    flat_map (bits 6) vals = flat_map (fun b => bits 8 (Byte.to_N b)) s ++ pad /\
    length pad < 6 /\ Forall (fun b => b = false) pad.

(** ** JSON *)
(** JSON values.  [JStr true s] is a string written without escapes, whose text can be borrowed from the document;
    the same for the keys of an object. *)
Inductive json :=
| JNull
| JBool (b : bool)
| JNum (x : f64)
| JStr (plain : bool) (s : bytes)
| JArr (l : list json)
| JObj (l : list (bool * bytes * json)).

Definition Ws (w : bytes) : Prop := Forall (fun b => b = x20 \/ b = x0a \/ b = x0d \/ b = x09) w.

Definition digit (b : byte) : Prop := (0x30 <= Byte.to_N b <= 0x39)%N.
Definition Digits (s : bytes) : Prop := s <> [] /\ Forall digit s.
(** number = [ minus ] int [ frac ] [ exp ] *)
Definition Number (tok : bytes) : Prop :=
  exists sg ip fp ep, tok = sg ++ ip ++ fp ++ ep /\
    (sg = [] \/ sg = [x2d]) /\
    (ip = [x30] \/ Digits ip /\ exists d ds, ip = d :: ds /\ d <> x30) /\
    (fp = [] \/ exists ds, fp = x2e :: ds /\ Digits ds) /\
    (ep = [] \/ exists e s ds, ep = e :: s ++ ds /\ (e = x65 \/ e = x45) /\ (s = [] \/ s = [x2b] \/ s = [x2d]) /\ Digits ds).

(** The two-character escapes. *)
Definition short_escape (c b : byte) : Prop :=
  In (c, b) [(x22, x22); (x5c, x5c); (x2f, x2f); (x62, x08); (x66, x0c); (x6e, x0a); (x72, x0d); (x74, x09)].
(** Four hexadecimal digits, either case. *)
Definition hex_digit (c : byte) (n : N) : Prop :=
  (n < 16)%N /\ (nth_error (B "0123456789abcdef") (N.to_nat n) = Some c \/ nth_error (B "0123456789ABCDEF") (N.to_nat n) = Some c).
Definition Hex4 (cs : bytes) (n : N) : Prop :=
  exists c0 c1 c2 c3 n0 n1 n2 n3, cs = [c0; c1; c2; c3] /\
    hex_digit c0 n0 /\ hex_digit c1 n1 /\ hex_digit c2 n2 /\ hex_digit c3 n3 /\
    (n = n0 * 4096 + n1 * 256 + n2 * 16 + n3)%N.

(** The inside of a string: source text, whether it is free of escapes, meaning. *)
Inductive Chars : bytes -> bool -> bytes -> Prop :=
| Chars_nil : Chars [] true []
| Chars_plain b src p s :
    (0x20 <= Byte.to_N b)%N -> b <> x22 -> b <> x5c -> Chars src p s -> Chars (b :: src) p (b :: s)
| Chars_short c b src p s : short_escape c b -> Chars src p s -> Chars (x5c :: c :: src) false (b :: s)
| Chars_u h n src p s : Hex4 h n -> scalar n -> Chars src p s ->
    Chars (x5c :: x75 :: h ++ src) false (encode_char n ++ s)
| Chars_pair h1 n1 h2 n2 src p s :
    Hex4 h1 n1 -> Hex4 h2 n2 -> (0xD800 <= n1 < 0xDC00)%N -> (0xDC00 <= n2 < 0xE000)%N -> Chars src p s ->
    Chars (x5c :: x75 :: h1 ++ x5c :: x75 :: h2 ++ src) false
          (encode_char (0x10000 + (n1 - 0xD800) * 0x400 + (n2 - 0xDC00)) ++ s).

Section Json.
  (** The value of a number; [None] if it is too large. *)
  Variable num_val : bytes -> option f64.

  (** [Value d t v]: the text [t] is the JSON value [v], with at most [d] levels of arrays and objects. *)
  Inductive Value : nat -> bytes -> json -> Prop :=
  | Value_null d : Value d (B "null") JNull
  | Value_true d : Value d (B "true") (JBool true)
  | Value_false d : Value d (B "false") (JBool false)
  | Value_num d tok x : Number tok -> num_val tok = Some x -> Value d tok (JNum x)
  | Value_str d src p s : Chars src p s -> Value d (x22 :: src ++ [x22]) (JStr p s)
  | Value_arr_empty d w : Ws w -> Value (S d) (x5b :: w ++ [x5d]) (JArr [])
  | Value_arr d w t v ts vs : Ws w -> Value d t v -> More_values d ts vs ->
      Value (S d) (x5b :: w ++ t ++ ts ++ [x5d]) (JArr (v :: vs))
  | Value_obj_empty d w : Ws w -> Value (S d) (x7b :: w ++ [x7d]) (JObj [])
  | Value_obj d w t m ts ms : Ws w -> Member d t m -> More_members d ts ms ->
      Value (S d) (x7b :: w ++ t ++ ts ++ [x7d]) (JObj (m :: ms))
  with Member : nat -> bytes -> bool * bytes * json -> Prop :=
  | Member_intro d src p k w1 w2 t v : Chars src p k -> Ws w1 -> Ws w2 -> Value d t v ->
      Member d (x22 :: src ++ x22 :: w1 ++ x3a :: w2 ++ t) (p, k, v)
  with More_values : nat -> bytes -> list json -> Prop :=
  | More_values_nil d w : Ws w -> More_values d w []
  | More_values_cons d w1 w2 t v ts vs : Ws w1 -> Ws w2 -> Value d t v -> More_values d ts vs ->
      More_values d (w1 ++ x2c :: w2 ++ t ++ ts) (v :: vs)
  with More_members : nat -> bytes -> list (bool * bytes * json) -> Prop :=
  | More_members_nil d w : Ws w -> More_members d w []
  | More_members_cons d w1 w2 t m ts ms : Ws w1 -> Ws w2 -> Member d t m -> More_members d ts ms ->
      More_members d (w1 ++ x2c :: w2 ++ t ++ ts) (m :: ms).

  (** A document: one value, surrounded by white space; at most 127 levels. *)
  Definition Document (doc : bytes) (v : json) : Prop :=
    exists w t w', doc = w ++ t ++ w' /\ Ws w /\ Ws w' /\ Value 127 t v.
End Json.
