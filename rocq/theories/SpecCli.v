(** Vocabulary for the properties of the command line. *)
From Coq Require Import Reals.
From Flocq Require Import Core.Core IEEE754.BinarySingleNaN.
From Verif Require Import Base F64 SpecUtf8 Processor.
Set Implicit Arguments.
Local Open Scope nat_scope.

(** [s] is the pieces [l], which do not contain the separator, with the separator between them. *)
Definition joined (sep : byte) (l : list bytes) : bytes :=
  match l with [] => [] | p :: ps => p ++ flat_map (cons sep) ps end.
Definition Parts (sep : byte) (s : bytes) (l : list bytes) : Prop :=
  l <> [] /\ Forall (fun p => ~ In sep p) l /\ s = joined sep l.

(** The description of a source: name:path or name:path:proportion. *)
Definition Describes (parse_f64 : bytes -> option f64) (src name path : bytes) (proportion : f64) : Prop :=
  Parts x3a src [name; path] /\ proportion = f1 \/
  exists text, Parts x3a src [name; path; text] /\ parse_f64 text = Some proportion.

(** Of [n] samples, [k] are taken: the greatest whole number below the (rounded) product, if it is one of 0 ... n. *)
Definition Share (n : nat) (proportion : f64) (k : nat) : Prop :=
  match fmul (f64_of_nat n) proportion with
  | B754_nan => k = 0
  | B754_infinity negative => k = if negative then 0 else n
  | y => Z.of_nat k = Z.min (Z.of_nat n) (Z.max 0 (Zfloor (B2R y)))
  end.

(** The lists without their empty strings. *)
Inductive Nonempty : list bytes -> list bytes -> Prop :=
| Nonempty_nil : Nonempty [] []
| Nonempty_drop l l' : Nonempty l l' -> Nonempty ([] :: l) l'
| Nonempty_keep b s l l' : Nonempty l l' -> Nonempty ((b :: s) :: l) ((b :: s) :: l').

(** One processor after the other. *)
Inductive Processed (normalize : unicode_form -> bytes -> bytes) : list processor -> bytes -> bytes -> Prop :=
| Processed_nil s : Processed normalize [] s s
| Processed_cons p ps s s' : Processed normalize ps (preprocess normalize p s) s' -> Processed normalize (p :: ps) s s'.

(** The samples of a file. *)
Definition Samples (normalize : unicode_form -> bytes -> bytes) (ps : list processor) (contents : bytes) (proportion : f64) (samples : list bytes) : Prop :=
  exists pieces nonempty k processed,
    Parts x00 contents pieces /\ Forall Utf8 pieces /\ Nonempty pieces nonempty /\
    Share (length nonempty) proportion k /\ Forall2 (Processed normalize ps) (firstn k nonempty) processed /\ Nonempty processed samples.

(** The characters with the property White_Space of Unicode. *)
Definition white (c : N) : Prop :=
  (9 <= c <= 13 \/ c = 0x20 \/ c = 0x85 \/ c = 0xA0 \/ c = 0x1680 \/ 0x2000 <= c <= 0x200A \/ c = 0x2028 \/ c = 0x2029 \/ c = 0x202F \/ c = 0x205F \/ c = 0x3000)%N.
(** The expression in a file: the characters that are not line breaks, without the white space around them. *)
Definition Expression (contents text : bytes) : Prop :=
  exists cs before kept after, Forall scalar cs /\ contents = encode_string cs /\
    filter (fun c => negb ((c =? 0x0A) || (c =? 0x0D)))%N cs = before ++ kept ++ after /\ text = encode_string kept /\
    Forall white before /\ Forall white after /\
    (forall c cs', kept = c :: cs' -> ~ white c) /\ (forall c cs', kept = cs' ++ [c] -> ~ white c).
