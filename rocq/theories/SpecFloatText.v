(** How [f64]s are written for Rust (the documentation of [f64::from_str]). *)
From Coq Require Import ZArith Reals.
From Flocq Require Import Core IEEE754.BinarySingleNaN.
From Coq.Strings Require Import String.
From Verif Require Import Base F64 SpecJson SpecNum.
Set Implicit Arguments.

Inductive Sign : bytes -> bool -> Prop :=
| Sign_none : Sign [] false
| Sign_plus : Sign [x2b] false
| Sign_minus : Sign [x2d] true.
(** A decimal: [s] says plus or minus [c * 10 ^ k].  There is a digit before or after the point. *)
Definition Decimal_text (s : bytes) (minus : bool) (c k : Z) : Prop :=
  exists sign whole point part power x,
    s = sign ++ whole ++ point ++ power /\ Sign sign minus /\
    (point = [] /\ part = [] \/ point = x2e :: part) /\ whole ++ part <> [] /\ Numeral (whole ++ part) c /\
    (power = [] /\ x = 0%Z \/
     exists e sign' ds negative n, power = e :: sign' ++ ds /\ (e = x65 \/ e = x45) /\ Sign sign' negative /\ ds <> [] /\ Numeral ds n /\
       x = if negative then (- n)%Z else n) /\
    k = (x - Z.of_nat (length part))%Z.
(** A word, whatever its letters' cases. *)
Definition Letter (small : byte) (b : byte) : Prop := b = small \/ (Byte.to_N b + 0x20 = Byte.to_N small)%N.
Definition Word_text (word : string) (s : bytes) (minus : bool) : Prop :=
  exists sign t, s = sign ++ t /\ Sign sign minus /\ Forall2 Letter (B word) t.

(** [y] is plus or minus [x] with the nearest number in the place of [x]; infinite if that would be 2^1024 or more. *)
Definition Rounded (minus : bool) (x : R) (y : f64) : Prop :=
  Bsign y = minus /\
  ((nearest x < bpow radix2 1024)%R /\ is_finite y = true /\ Rabs (B2R y) = nearest x \/
   (bpow radix2 1024 <= nearest x)%R /\ y = B754_infinity minus).
