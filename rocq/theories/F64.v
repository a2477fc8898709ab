(** [f64]: IEEE-754 binary64, via Flocq's formalisation with a single NaN. *)
From Coq Require Import ZArith Reals Psatz SpecFloat.
From Flocq Require Import Core BinarySingleNaN.
Set Implicit Arguments.

Definition prec64 : Z := 53.
Definition emax64 : Z := 1024.
#[global] Instance prec64_gt_0 : Prec_gt_0 prec64 := eq_refl.
#[global] Instance prec64_lt_emax : Prec_lt_emax prec64 emax64 := eq_refl.

(** The type [f64].  The NaN payload is not modelled (one NaN). *)
Definition f64 : Type := binary_float prec64 emax64.

(** [a + b], [a - b], [a * b], [a / b] with round-to-nearest, ties to even. *)
Definition fadd (a b : f64) : f64 := Bplus mode_NE a b.
Definition fsub (a b : f64) : f64 := Bminus mode_NE a b.
Definition fmul (a b : f64) : f64 := Bmult mode_NE a b.
Definition fdiv (a b : f64) : f64 := Bdiv mode_NE a b.
Definition fneg (a : f64) : f64 := Bopp a.

(** [a < b], [a <= b], [a == b]: false if an operand is NaN. *)
Definition fltb (a b : f64) : bool := Bltb a b.
Definition fleb (a b : f64) : bool := Bleb a b.
Definition feqb (a b : f64) : bool := Beqb a b.

(** [a.partial_cmp(&b)]. *)
Definition fcmp (a b : f64) : option comparison := Bcompare a b.

Definition fnan : f64 := B754_nan.
Definition finf : f64 := B754_infinity false.
(** [f64::NEG_INFINITY]. *)
Definition fninf : f64 := B754_infinity true.

(** [n as f64] for an integer, and decimal-free literals: nearest-even rounding of m * 2^e. *)
Definition f64_of_Z_exp (m e : Z) : f64 :=
  binary_normalize prec64 emax64 _ _ mode_NE m e false.
Definition f64_of_Z (m : Z) : f64 := f64_of_Z_exp m 0.
Definition f64_of_nat (n : nat) : f64 := f64_of_Z (Z.of_nat n).

Definition f0 : f64 := B754_zero false.
Definition f1 : f64 := f64_of_Z 1.
(** The literal [0.5]. *)
Definition fhalf : f64 := f64_of_Z_exp 1 (-1).

(** [x.is_nan()], [x.is_infinite()], [x.is_finite()]. *)
Definition f_is_nan (a : f64) : bool := is_nan a.
Definition f_is_infinite (a : f64) : bool :=
  match a with B754_infinity _ => true | _ => false end.
Definition f_is_finite (a : f64) : bool := is_finite a.

(** [x.is_normal()]: neither zero, infinite, subnormal nor NaN.  A finite
    number is subnormal when its (canonical) mantissa has fewer than 53 bits. *)
Definition f_is_normal (a : f64) : bool :=
  match a with
  | B754_finite _ m _ _ => (2 ^ 52 <=? Z.pos m)%Z
  | _ => false
  end.

(** [f64::max(a, b)]: if one argument is NaN the other is returned. *)
Definition fmax (a b : f64) : f64 :=
  if f_is_nan a then b else if fltb a b then b else a.

(** [x as usize]: truncation towards zero, saturating, NaN to 0.  [usize] is 64 bits wide. *)
Definition usize_max : Z := (2 ^ 64 - 1)%Z.
Definition f64_as_usize (a : f64) : nat :=
  match a with
  | B754_nan => 0
  | B754_infinity s => if s then 0 else Z.to_nat usize_max
  | _ => Z.to_nat (Z.min usize_max (Z.max 0 (Btrunc a)))
  end.
