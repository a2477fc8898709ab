(** Independent vocabulary for the progress of EM: what a turn is meant to increase. *)
From Coq Require Import Reals.
From Flocq Require Import Core BinarySingleNaN.
From Verif Require Import Base F64 Model SpecMarginal SpecDigamma.
Set Implicit Arguments.
Local Open Scope R_scope.

(** [v] is the value at [x] of the logarithm of the gamma function, by Gauss' limit:
    x ln (n + 1) + (ln 1 + ... + ln n) - (ln x + ln (x+1) + ... + ln (x+n)). *)
Definition log_gamma_at (x v : R) : Prop :=
  Un_cv (fun n => x * ln (INR (S n)) + sum (fun k => ln (INR k)) (seq 1 n) - sum (fun k => ln (x + INR k)) (seq 0 (S n))) v.
Definition log_gamma (lg : R -> R) : Prop := forall x, 0 < x -> log_gamma_at x (lg x).

(** The tokens have the scores [s]; [Lss] has, for each piece of each sample, its cuts.
    The probability of a cut up to a factor, and the logarithm of the probability of all pieces. *)
Definition weight_of (s : N -> R) (ids : list N) : R := exp (sum s ids).
Definition log_likelihood (s : N -> R) (Lss : list (list (list (list N)))) : R := sum (sum (fun L => ln (sum (weight_of s) L))) Lss.
(** How many times a token is expected. *)
Definition uses_of (s : N -> R) (Lss : list (list (list (list N)))) (id : N) : R :=
  sum (sum (fun L => sum (fun ids => INR (count_occ N.eq_dec ids id) * (weight_of s ids / sum (weight_of s) L)) L)) Lss.
(** The ids of [n] tokens. *)
Definition all_ids (n : nat) : list N := map N.of_nat (seq 0 n).
(** The cuts use no other tokens than those [n]. *)
Definition in_range (n : nat) (Lss : list (list (list (list N)))) : Prop := Forall (Forall (Forall (Forall (fun id => In id (all_ids n))))) Lss.
(** The objective of EM with the digamma function (variational Bayes; the probabilities of the tokens have the Dirichlet distribution with the parameters [f]):
    the log-likelihood under the scores, minus the distance of the distribution from its prior, up to a constant. *)
Definition objective (lg : R -> R) (n : nat) (s f : N -> R) (Lss : list (list (list (list N)))) : R :=
  log_likelihood s Lss - (sum (fun i => f i * s i) (all_ids n) - (sum (fun i => lg (f i)) (all_ids n) - lg (sum f (all_ids n)))).
(** The scores [s] are those of the counts [f], up to [e]: psi (f i) - psi (sum of the f). *)
Definition scores_of (e : R) (n : nat) (f s : N -> R) : Prop :=
  forall i phi psi, In i (all_ids n) -> digamma_at (f i) phi -> digamma_at (sum f (all_ids n)) psi -> Rabs (s i - (phi - psi)) <= e.
(** The scores of a vocabulary. *)
Definition vocab_score (vocab : list scored_token) (id : N) : R := match nth_error vocab (N.to_nat id) with Some t => B2R (st_score t) | None => 0 end.
