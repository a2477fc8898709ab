(** UTF-8 as defined by the Unicode standard: the encoding form of each scalar
    value, and the replacement of maximal ill-formed subparts by U+FFFD. *)
From Verif Require Import Base.
Set Implicit Arguments.

(** Unicode scalar values: code points without the surrogates. *)
Definition scalar (c : N) : Prop := (c < 0xD800 \/ 0xE000 <= c < 0x110000)%N.

Definition byte_of_N (n : N) : byte :=
  match Byte.of_N n with Some b => b | None => x00 end.

(** The UTF-8 code unit sequence of a scalar value. *)
Definition encode_char (c : N) : bytes :=
  (if c <? 0x80 then [byte_of_N c]
   else if c <? 0x800 then [byte_of_N (0xC0 + c / 64); byte_of_N (0x80 + c mod 64)]
   else if c <? 0x10000 then
     [byte_of_N (0xE0 + c / 4096); byte_of_N (0x80 + c / 64 mod 64); byte_of_N (0x80 + c mod 64)]
   else
     [byte_of_N (0xF0 + c / 262144); byte_of_N (0x80 + c / 4096 mod 64);
      byte_of_N (0x80 + c / 64 mod 64); byte_of_N (0x80 + c mod 64)])%N.

Definition encode_string (cs : list N) : bytes := concat (map encode_char cs).

(** Well-formed UTF-8. *)
Definition Utf8 (s : bytes) : Prop := exists cs, Forall scalar cs /\ s = encode_string cs.

(** [p] begins some character's encoding without being all of it. *)
Definition char_start (p : bytes) : Prop :=
  exists c q, scalar c /\ q <> [] /\ encode_char c = p ++ q.

(** [p] is the maximal ill-formed subpart at the beginning of [s]: [s] does not
    begin with a character; [p] is the longest start of [s] that begins some
    character, or one byte if there is none. *)
Definition bad_part (s p : bytes) : Prop :=
  (exists r, s = p ++ r) /\ p <> [] /\
  (forall c r, scalar c -> s <> encode_char c ++ r) /\
  ((char_start p /\ forall p' r', s = p' ++ r' -> char_start p' -> length p' <= length p) \/
   (length p = 1 /\ forall p' r', s = p' ++ r' -> p' <> [] -> ~ char_start p')).

(** Lossy decoding: characters stay, maximal ill-formed subparts become U+FFFD. *)
Inductive Lossy : bytes -> bytes -> Prop :=
| Lossy_nil : Lossy [] []
| Lossy_char c r out : scalar c -> Lossy r out -> Lossy (encode_char c ++ r) (encode_char c ++ out)
| Lossy_bad p r out : bad_part (p ++ r) p -> Lossy r out -> Lossy (p ++ r) (encode_char 0xFFFD ++ out).
