(** Independent vocabulary for EM training: what one turn is meant to compute, as real numbers. *)
From Coq Require Import Reals Sorted.
From Flocq Require Import Core BinarySingleNaN.
From Verif Require Import Base F64 Model SpecModel SpecMarginal SpecPrune SpecDigamma.
Set Implicit Arguments.
Local Open Scope R_scope.

(** How many times the token [i] is expected in the texts whose cuts are [Lss]. *)
Definition expected_uses (vocab : list scored_token) (Lss : list (list (list (list N)))) (i : nat) : R :=
  sum (sum (average_uses vocab (N.of_nat i))) Lss.

(** One turn of EM leads from [vocab] to [vocab'], the numbers of uses being known up to the relative error [delta]:
    the samples are taken in pieces of 81920 bytes; the tokens expected at least half a time, and those to be kept, go on in the same order;
    the new score of a token is psi (f) - psi (sum of the f), f its expected number of uses or 1/2 if that is more. *)
Definition turn (delta : R) (samples : list bytes) (vocab vocab' : list scored_token) : Prop :=
  exists pss Lss ids, Forall2 (pieces (N.to_nat 81920)) samples pss /\ Forall2 (Forall2 (all_cuts vocab)) pss Lss /\
  let expected := expected_uses vocab Lss in
  let used := fun i => Rmax (expected i) (/ 2) in
  StronglySorted lt ids /\
  (forall i t, nth_error vocab i = Some t ->
    (st_keep t = true \/ / 2 + delta <= expected i -> In i ids) /\ (In i ids -> st_keep t = true \/ / 2 - delta <= expected i)) /\
  Forall2 (fun i t' => exists t, nth_error vocab i = Some t /\ st_value t' = st_value t /\ st_keep t' = st_keep t /\ is_finite (st_score t') = true /\
    forall phi psi, digamma_at (used i) phi -> digamma_at (sum used ids) psi ->
      Rabs (B2R (st_score t') - (phi - psi)) <= 12 * delta + 2 / 10000000000 + INR (length ids) / 100000000000000) ids vocab'.

(** Every byte of [s] is, alone, a token that is to be kept. *)
Definition kept_bytes (vocab : list scored_token) (s : bytes) : Prop :=
  Forall (fun b => exists t, In t vocab /\ st_value t = [b] /\ st_keep t = true) s.
