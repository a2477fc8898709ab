(** Sums of numbers that are not negative, in binary64: the relative error is one rounding for every addition. *)
From Coq Require Import ZArith Reals Psatz Permutation.
From Flocq Require Import Core Relative Plus_error BinarySingleNaN.
From Verif Require Import Base F64 F64Proofs FloatErr SpecMarginal MarginalProofs DigammaProofs LseProofs FloatMarginal.
Set Implicit Arguments.
Local Open Scope R_scope.

Lemma fadd_relative a b : is_finite a = true -> is_finite b = true -> 0 <= B2R a -> 0 <= B2R b -> B2R a + B2R b <= huge ->
  is_finite (fadd a b) = true /\ exp (- (2 * ulp_half)) * (B2R a + B2R b) <= B2R (fadd a b) <= exp (2 * ulp_half) * (B2R a + B2R b).
Proof.
  intros Fa Fb Pa Pb H. assert (Ha : Rabs (B2R a + B2R b) <= huge) by (rewrite Rabs_pos_eq; lra).
  destruct (@fadd_err a b huge Fa Fb Ha (Rle_refl _)) as [F _]. split; [exact F|]. rewrite (fadd_rnd a b Fa Fb Ha).
  destruct (@FLT_plus_error_N_ex radix2 (3 - emax64 - prec64) prec64 eq_refl (fun x => negb (Z.even x)) (B2R a) (B2R b)) as (e & He & E); [apply generic_format_B2R..|].
  change (round radix2 (SpecFloat.fexp prec64 emax64) ZnearestE (B2R a + B2R b)) with (round radix2 (FLT_exp (3 - emax64 - prec64) prec64) ZnearestE (B2R a + B2R b)). rewrite E.
  assert (Hu : 0 < ulp_half <= / 100) by (unfold ulp_half; lra).
  assert (He' : Rabs e <= ulp_half).
  { eapply Rle_trans; [exact He|]. eapply Rle_trans; [apply u_rod1pu_ro_le_u_ro|]. unfold u_ro, ulp_half. simpl. lra. }
  apply Rabs_le_inv in He'. assert (E1 := exp_ge_1 (2 * ulp_half)).
  assert (E2 : exp (- (2 * ulp_half)) <= 1 - ulp_half).
  { rewrite exp_Ropp. apply Rle_trans with (/ (1 + 2 * ulp_half)); [apply Rinv_le_contravar; lra|]. apply Rmult_le_reg_l with (1 + 2 * ulp_half); [lra|]. rewrite Rinv_r by lra. nra. }
  rewrite !(Rmult_comm _ (B2R a + B2R b)). split; apply Rmult_le_compat_l; lra.
Qed.

Definition big : R := bpow radix2 900.
Lemma big_huge : 4 * big <= huge.
Proof. unfold big. replace huge with (bpow radix2 1000) by reflexivity. change 4 with (bpow radix2 2). rewrite <- bpow_plus. apply bpow_le. lia. Qed.

(** [x] was got from numbers of sum [r] by additions, [n] of them one after the other at most. *)
Definition tally (n : nat) (x : f64) (r : R) : Prop :=
  is_finite x = true /\ 0 <= r /\ exp (- (INR n * (2 * ulp_half))) * r <= B2R x <= exp (INR n * (2 * ulp_half)) * r.
Lemma tally_one x : is_finite x = true -> 0 <= B2R x -> tally 0 x (B2R x).
Proof. intros F P. split; [exact F|]. split; [exact P|]. simpl. rewrite Rmult_0_l, Ropp_0, exp_0. lra. Qed.
Lemma tally_weaken n m x r : (n <= m)%nat -> tally n x r -> tally m x r.
Proof.
  intros H (F & P & B1 & B2). split; [exact F|]. split; [exact P|]. apply le_INR in H. assert (Hu : 0 < ulp_half) by (unfold ulp_half; lra).
  assert (H1 : INR n * (2 * ulp_half) <= INR m * (2 * ulp_half)) by (apply Rmult_le_compat_r; lra).
  assert (L1 := @exp_le (- (INR m * (2 * ulp_half))) (- (INR n * (2 * ulp_half))) ltac:(lra)). assert (L2 := exp_le H1). split.
  - eapply Rle_trans; [|exact B1]. apply Rmult_le_compat_r; lra.
  - eapply Rle_trans; [exact B2|]. apply Rmult_le_compat_r; lra.
Qed.
Lemma exp_1_3 x : x <= 1 -> exp x <= 3.
Proof. intros H. eapply Rle_trans; [apply exp_le; exact H|]. apply exp_le_3. Qed.
Lemma tally_add n x y r t : tally n x r -> tally n y t -> INR n * (2 * ulp_half) <= 1 -> r + t <= big -> tally (n + 1) (fadd x y) (r + t).
Proof.
  intros (Fx & Pr & X1 & X2) (Fy & Pt & Y1 & Y2) Hn Hb. assert (E := exp_1_3 Hn). assert (Ep := exp_pos (- (INR n * (2 * ulp_half)))). assert (Ep' := exp_pos (INR n * (2 * ulp_half))).
  assert (Hbig := big_huge). assert (Px : 0 <= B2R x) by (eapply Rle_trans; [|exact X1]; apply Rmult_le_pos; lra). assert (Py : 0 <= B2R y) by (eapply Rle_trans; [|exact Y1]; apply Rmult_le_pos; lra).
  assert (Hs : B2R x + B2R y <= 3 * (r + t)).
  { assert (exp (INR n * (2 * ulp_half)) * r <= 3 * r) by (apply Rmult_le_compat_r; lra). assert (exp (INR n * (2 * ulp_half)) * t <= 3 * t) by (apply Rmult_le_compat_r; lra). lra. }
  assert (B0 : 0 < big) by apply bpow_gt_0. destruct (@fadd_relative x y Fx Fy Px Py ltac:(lra)) as (F & Z1 & Z2). split; [exact F|]. split; [lra|]. rewrite plus_INR. simpl (INR 1).
  replace (- ((INR n + 1) * (2 * ulp_half))) with (- (2 * ulp_half) + - (INR n * (2 * ulp_half))) by ring. replace ((INR n + 1) * (2 * ulp_half)) with (2 * ulp_half + INR n * (2 * ulp_half)) by ring.
  rewrite !exp_plus, !Rmult_assoc. assert (G1 := exp_pos (- (2 * ulp_half))). assert (G2 := exp_pos (2 * ulp_half)). split.
  - eapply Rle_trans; [|exact Z1]. apply Rmult_le_compat_l; lra.
  - eapply Rle_trans; [exact Z2|]. apply Rmult_le_compat_l; lra.
Qed.
Lemma tally_fold L : (forall v, In v L -> is_finite v = true /\ 0 <= B2R v) -> forall n x r, tally n x r -> INR (n + length L) * (2 * ulp_half) <= 1 -> r + sum (fun v : f64 => B2R v) L <= big ->
  tally (n + length L) (fold_left fadd L x) (r + sum (fun v : f64 => B2R v) L).
Proof.
  induction L as [|v L IH]; intros HL n x r Hx Hn Hr.
  - rewrite sum_nil, Rplus_0_r. simpl. rewrite Nat.add_0_r. exact Hx.
  - cbn [fold_left length]. rewrite sum_cons in *. destruct (HL v (or_introl eq_refl)) as [Fv Pv].
    assert (HL' : forall w, In w L -> is_finite w = true /\ 0 <= B2R w) by (intros w Hw; apply HL; now right).
    assert (Hs0 : 0 <= sum (fun v : f64 => B2R v) L) by (apply MarginalProofs.sum_nonneg; intros w Hw; now apply HL').
    assert (Hu : 0 < ulp_half) by (unfold ulp_half; lra).
    replace (n + S (length L))%nat with (n + 1 + length L)%nat by lia. rewrite <- Rplus_assoc. apply IH; [exact HL'| | |lra].
    + apply tally_add; [exact Hx|apply tally_weaken with 0%nat; [lia|now apply tally_one]| |lra]. eapply Rle_trans; [|exact Hn]. apply Rmult_le_compat_r; [lra|]. apply le_INR. cbn [length]. lia.
    + cbn [length] in Hn. replace (n + 1 + length L)%nat with (n + S (length L))%nat by lia. exact Hn.
Qed.
