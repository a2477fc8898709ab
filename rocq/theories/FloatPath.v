(** Sums of scores of any sign, in binary64. *)
From Coq Require Import ZArith Reals Psatz.
From Flocq Require Import Core Relative Plus_error BinarySingleNaN.
From Verif Require Import Base F64 F64Proofs Model SpecModel BaseProofs FloatErr LseProofs FloatSum SpecLattice Lattice LatticeProofs SpecMarginal MarginalProofs SpecPrune SpecBest.
Set Implicit Arguments.
Local Open Scope R_scope.

Lemma fadd_within a b : is_finite a = true -> is_finite b = true -> Rabs (B2R a + B2R b) <= huge ->
  is_finite (fadd a b) = true /\ Rabs (B2R (fadd a b) - (B2R a + B2R b)) <= ulp_half * Rabs (B2R a + B2R b).
Proof.
  intros Fa Fb Ha. destruct (@fadd_err a b huge Fa Fb Ha (Rle_refl _)) as [F _]. split; [exact F|]. rewrite (fadd_rnd a b Fa Fb Ha).
  destruct (@FLT_plus_error_N_ex radix2 (3 - emax64 - prec64) prec64 eq_refl (fun x => negb (Z.even x)) (B2R a) (B2R b)) as (e & He & E); [apply generic_format_B2R..|].
  change (rnd64 (B2R a + B2R b)) with (round radix2 (FLT_exp (3 - emax64 - prec64) prec64) ZnearestE (B2R a + B2R b)). rewrite E.
  assert (He' : Rabs e <= ulp_half).
  { eapply Rle_trans; [exact He|]. eapply Rle_trans; [apply u_rod1pu_ro_le_u_ro|]. unfold u_ro, ulp_half. simpl. lra. }
  replace ((B2R a + B2R b) * (1 + e) - (B2R a + B2R b)) with (e * (B2R a + B2R b)) by ring. rewrite Rabs_mult. apply Rmult_le_compat_r; [apply Rabs_pos|exact He'].
Qed.

Section Sums.
  Variables (N : nat) (S : R).
  Hypothesis HN : (N.of_nat N <= 2 ^ 52)%N.
  Hypothesis HS : 0 <= S <= big.

  Definition loss : R := INR N * (2 * ulp_half) * S.
  (** [a] was got by adding [j] numbers that add up to [r]. *)
  Definition approx (j : nat) (a : f64) (r : R) : Prop := is_finite a = true /\ (1 <= j)%nat /\ Rabs r <= INR j * S /\ Rabs (B2R a - r) <= (INR j - 1) * loss.

  Lemma N_ulp : INR N * (2 * ulp_half) <= 1.
  Proof.
    assert (H : (Z.of_nat N <= 2 ^ 52)%Z) by lia. apply IZR_le in H. rewrite <- INR_IZR_INZ in H. change (IZR (2 ^ 52)) with 4503599627370496 in H. unfold ulp_half. lra.
  Qed.
  Lemma loss_pos : 0 <= loss.
  Proof. unfold loss. apply Rmult_le_pos; [|apply HS]. apply Rmult_le_pos; [apply pos_INR|unfold ulp_half; lra]. Qed.
  Lemma loss_S : loss <= S.
  Proof. unfold loss. assert (H := N_ulp). rewrite <- (Rmult_1_l S) at 2. apply Rmult_le_compat_r; [apply HS|exact H]. Qed.
  Lemma fits_huge : 2 * INR N * S <= huge.
  Proof.
    assert (H := N_ulp). assert (Hb : 2 * INR N <= bpow radix2 53). { unfold ulp_half in H. change (bpow radix2 53) with 9007199254740992. lra. }
    apply Rle_trans with (bpow radix2 53 * bpow radix2 900).
    - apply Rmult_le_compat; [assert (P := pos_INR N); lra|apply HS|exact Hb|apply HS].
    - rewrite <- bpow_plus. unfold huge. apply bpow_le. lia.
  Qed.
  Lemma approx_one a : is_finite a = true -> Rabs (B2R a) <= S -> approx 1 a (B2R a).
  Proof. intros F H. split; [exact F|]. split; [lia|]. simpl (INR 1). split; [lra|]. rewrite Rminus_diag_eq by reflexivity. rewrite Rabs_R0. lra. Qed.
  Lemma approx_zero : approx 1 f0 0.
  Proof. assert (H : B2R f0 = 0) by reflexivity. rewrite <- H. apply approx_one; [reflexivity|]. rewrite H, Rabs_R0. apply HS. Qed.
  Lemma approx_add j k a b r t : approx j a r -> approx k b t -> (j + k <= N)%nat -> approx (j + k) (fadd a b) (r + t).
  Proof.
    intros (Fa & Ja & Ra & Ea) (Fb & Jb & Rb & Eb) HJ. apply le_INR in HJ. apply le_INR in Ja, Jb. simpl (INR 1) in Ja, Jb. rewrite plus_INR in HJ.
    assert (L0 := loss_pos). assert (LS := loss_S). assert (FH := fits_huge). assert (P := pos_INR N).
    assert (T1 := Rabs_triang r t). assert (T2 := Rabs_triang (B2R a - r) (B2R b - t)).
    assert (Hs : Rabs (B2R a + B2R b) <= 2 * INR N * S).
    { replace (B2R a + B2R b) with (r + t + (B2R a - r + (B2R b - t))) by ring. eapply Rle_trans; [apply Rabs_triang|].
      assert ((INR j + INR k) * S <= INR N * S) by (apply Rmult_le_compat_r; lra). assert ((INR j - 1 + (INR k - 1)) * loss <= INR N * S) by (apply Rmult_le_compat; lra). lra. }
    destruct (@fadd_within a b Fa Fb ltac:(lra)) as [F He]. split; [exact F|]. split; [apply INR_le; rewrite plus_INR; simpl (INR 1); lra|]. rewrite plus_INR. split; [lra|].
    assert (Hl : ulp_half * Rabs (B2R a + B2R b) <= loss).
    { unfold loss. replace (INR N * (2 * ulp_half) * S) with (ulp_half * (2 * INR N * S)) by ring. apply Rmult_le_compat_l; [unfold ulp_half; lra|exact Hs]. }
    replace (B2R (fadd a b) - (r + t)) with (B2R (fadd a b) - (B2R a + B2R b) + (B2R a - r + (B2R b - t))) by ring. eapply Rle_trans; [apply Rabs_triang|]. lra.
  Qed.
  Lemma approx_slack j a r : approx j a r -> (j <= N)%nat -> Rabs (B2R a - r) <= slack N S / 2.
  Proof.
    intros (_ & _ & _ & H) Hj. eapply Rle_trans; [exact H|]. apply le_INR in Hj. assert (L0 := loss_pos). apply Rle_trans with (INR N * loss); [apply Rmult_le_compat_r; lra|].
    unfold loss, slack, ulp_half. lra.
  Qed.

  (** The scores of a list of ids. *)
  Lemma approx_score vocab ids : scores_within vocab S -> forall j a r, approx j a r -> (j + length ids <= N)%nat ->
    exists k, (k <= j + length ids)%nat /\ approx k (fold_left (add_score vocab) ids a) (r + real_score vocab ids).
  Proof.
    intros HV. induction ids as [|id ids IH]; intros j a r Ha Hj.
    - exists j. split; [simpl; lia|]. unfold real_score. rewrite sum_nil, Rplus_0_r. exact Ha.
    - cbn [fold_left length] in *. unfold real_score. rewrite sum_cons. unfold add_score at 2. destruct (nth_error vocab (N.to_nat id)) as [t|] eqn:Et.
      + destruct (HV t (nth_error_In _ _ Et)) as [Ft Bt]. destruct (IH (j + 1)%nat (fadd a (st_score t)) (r + B2R (st_score t))) as (k & Hk & H).
        * apply approx_add; [exact Ha|now apply approx_one|lia].
        * lia.
        * exists k. split; [lia|]. rewrite <- Rplus_assoc. exact H.
      + destruct (IH j a r Ha ltac:(lia)) as (k & Hk & H). exists k. split; [lia|]. rewrite Rplus_0_l. exact H.
  Qed.
End Sums.

(** ** Paths *)
Section Paths.
  Variables (e ln : f64 -> f64) (E : list (span f64)).
  Hypothesis Hne : non_empty E.
  Local Notation A := (f64_arith e ln).

  Lemma exact_cons {k x} ks : nth_error E k = Some x -> exact_score E (k :: ks) = B2R (s_score x) + exact_score E ks.
  Proof. intros H. unfold exact_score, spans_of. simpl. now rewrite H. Qed.
  Lemma exact_skip {k} ks : nth_error E k = None -> exact_score E (k :: ks) = exact_score E ks.
  Proof. intros H. unfold exact_score, spans_of. simpl. now rewrite H. Qed.
  Lemma exact_app a b : exact_score E (a ++ b) = exact_score E a + exact_score E b.
  Proof.
    induction a as [|k a IH]; [unfold exact_score at 2; simpl; lra|]. simpl app. destruct (nth_error E k) as [x|] eqn:Ek.
    - rewrite !(exact_cons _ Ek), IH. lra.
    - now rewrite !(exact_skip _ Ek).
  Qed.
  Lemma path_short p q ks : Path E p q ks -> (p + length ks <= q)%nat.
  Proof.
    induction 1 as [|k x ks q Hk H IH]; [simpl; lia|]. assert (H1 := proj1 (Forall_forall _ _) Hne x (nth_error_In _ _ Hk)). cbv beta in H1. unfold s_end in IH. simpl. lia.
  Qed.

  Variables (N : nat) (S : R).
  Hypothesis HN : (N.of_nat N <= 2 ^ 52)%N.
  Hypothesis HS : 0 <= S <= big.
  Hypothesis HE : spans_within E S.
  Lemma approx_acc ks : (1 + length ks <= N)%nat -> approx N S (1 + length ks) (acc A E ks) (exact_score E ks).
  Proof.
    enough (H : forall ks j a r, approx N S j a r -> (j + length ks <= N)%nat ->
      approx N S (j + length ks) (fold_left (fun x k => match nth_error E k with Some e => a_add A x (s_score e) | None => x end) ks a) (r + exact_score E ks)).
    { intros Hk. rewrite <- (Rplus_0_l (exact_score E ks)). apply H; [now apply approx_zero|exact Hk]. }
    clear ks. induction ks as [|k ks IH]; intros j a r Ha Hj.
    - simpl. rewrite Nat.add_0_r. unfold exact_score. simpl. rewrite Rplus_0_r. exact Ha.
    - cbn [fold_left length] in *. destruct (nth_error E k) as [x|] eqn:Ek.
      + rewrite (exact_cons _ Ek), <- Rplus_assoc. replace (j + Datatypes.S (length ks))%nat with (j + 1 + length ks)%nat by lia. apply IH; [|lia].
        destruct (HE x (nth_error_In _ _ Ek)) as [F B]. apply approx_add; auto; [now apply approx_one|lia].
      + rewrite (exact_skip _ Ek). replace (j + Datatypes.S (length ks))%nat with (j + 1 + length ks)%nat by lia. apply IH; [|lia].
        rewrite <- (Rplus_0_r r). destruct Ha as (F & J & B & X). assert (L := loss_pos N HS). rewrite Rplus_0_r. split; [exact F|]. split; [lia|]. rewrite plus_INR. simpl (INR 1). lra.
  Qed.
End Paths.
