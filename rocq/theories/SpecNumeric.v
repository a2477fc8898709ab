(** What the platform's logarithm may be, and the loss of a token as a real number. *)
From Coq Require Import Reals.
From Flocq Require Import Core BinarySingleNaN.
From Verif Require Import Base F64 RealArith SpecMarginal.
Set Implicit Arguments.
Local Open Scope R_scope.

(** [lnf] is a logarithm in binary64: the relative error is at most 2^-52. *)
Definition accurate_ln (lnf : f64 -> f64) : Prop := forall x, is_finite x = true -> 0 < B2R x ->
  is_finite (lnf x) = true /\ Rabs (B2R (lnf x) - ln (B2R x)) <= Rabs (ln (B2R x)) * / 4503599627370496.

(** How much the log-likelihood per sample is reduced when a token used [n] times is replaced by the tokens [alts]: its own log-probability
    n / total, less the log-probabilities of its replacements once their counts have been raised by [n].  The new total is the one of the program:
    [n] is added once for every token of the vocabulary but one. *)
Definition exact_loss (counts : list nat) (vocab_size num_samples n : nat) (alts : list N) : R :=
  let total := INR (list_sum counts) in
  INR n / INR num_samples * (ln (INR n / total) - sum (fun a => ln ((INR (nth (N.to_nat a) counts 0%nat) + INR n) / (total + INR n * INR (vocab_size - 1)))) alts).
