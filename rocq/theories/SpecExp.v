(** What is asked of the function [f64::exp] of the platform. *)
From Coq Require Import Reals.
From Flocq Require Import Core BinarySingleNaN.
From Verif Require Import F64.
Set Implicit Arguments.
Local Open Scope R_scope.

(** The values are at most 2^-52 off, relatively, or 2^-1074 where they are too small for that, and not negative. *)
Definition accurate_exp (expf : f64 -> f64) : Prop := forall x, is_finite x = true -> B2R x <= 1 ->
  is_finite (expf x) = true /\ 0 <= B2R (expf x) /\ Rabs (B2R (expf x) - exp (B2R x)) <= exp (B2R x) * bpow radix2 (-52) + bpow radix2 (-1074).

(** The rounding error of the logarithms computed for a text of [len] bytes, the tokens having at most [width] bytes and scores between
    [-score] and [score]: each of the at most [len * width] tokens found is visited twice. *)
Definition piece_rounding (len width : nat) (score : R) : R :=
  let found := INR len * INR width in (2 * found + 8) * (INR len * score + 2 * found + 70) / 9007199254740992.
(** The floating-point number [x] is the real number [y] up to the factor e^[err] and the difference [d]. *)
Definition close_to (err d y : R) (x : f64) : Prop := is_finite x = true /\ exp (- err) * y - d <= B2R x <= exp err * y + d.
