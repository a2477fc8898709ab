(** Rounding errors of binary64 arithmetic. *)
From Coq Require Import ZArith Reals Psatz.
From Flocq Require Import Core Relative BinarySingleNaN.
From Verif Require Import F64 F64Proofs.
Set Implicit Arguments.
Open Scope R_scope.

(** Half a unit in the last place, relative to the result; and a bound of the error near 0. *)
Definition ulp_half : R := / 9007199254740992.
Definition tiny : R := / 1606938044258990275541962092341162602522202993782792835301376.
Definition huge : R := bpow radix2 1000.

Lemma rnd64_FLT x : rnd64 x = round radix2 (FLT_exp (-1074) 53) ZnearestE x.
Proof. reflexivity. Qed.
Lemma rnd_error x M : Rabs x <= M -> Rabs (rnd64 x - x) <= M * ulp_half + tiny.
Proof.
  intros HM. rewrite rnd64_FLT. assert (Hx := Rabs_pos x).
  assert (Hu : / 2 * bpow radix2 (- (53) + 1) = ulp_half) by (unfold ulp_half; simpl; lra).
  assert (Ht : 0 < tiny) by (unfold tiny; lra). assert (Hu0 : 0 < ulp_half) by (unfold ulp_half; lra).
  destruct (Rle_or_lt (bpow radix2 (-1074 + 53 - 1)) (Rabs x)) as [H|H].
  - assert (He := @relative_error_N_FLT radix2 (-1074) 53 eq_refl (fun x => negb (Z.even x)) x H). rewrite Hu in He. nra.
  - assert (He := @error_le_half_ulp radix2 (FLT_exp (-1074) 53) (@FLT_exp_valid (-1074) 53 eq_refl) (fun x => negb (Z.even x)) x).
    rewrite ulp_FLT_small in He by first [exact eq_refl|eapply Rlt_trans; [exact H|]; apply bpow_lt; lia].
    assert (Hb : bpow radix2 (-1074) <= tiny) by (replace tiny with (bpow radix2 (-200)); [apply bpow_le; lia|unfold tiny; simpl; reflexivity]).
    assert (0 <= M * ulp_half) by nra. lra.
Qed.
Lemma le_huge x : x <= 1152921504606846976 -> x <= huge.
Proof. intros H. apply Rle_trans with (1 := H). unfold huge. change 1152921504606846976 with (bpow radix2 60). apply bpow_le. lia. Qed.
Lemma rnd_fits x : Rabs x <= huge -> Rabs (rnd64 x) < bpow radix2 emax64.
Proof.
  intros H. apply Rle_lt_trans with huge.
  - apply abs_round_le_generic; [now apply (fexp_correct prec64 emax64); exact prec64_gt_0|apply valid_rnd_N|unfold huge; apply generic_format_bpow; unfold SpecFloat.fexp, SpecFloat.emin, prec64, emax64; simpl; lia|exact H].
  - unfold huge, emax64. apply bpow_lt. lia.
Qed.

Lemma fadd_err a b M : is_finite a = true -> is_finite b = true -> Rabs (B2R a + B2R b) <= M -> M <= huge ->
  is_finite (fadd a b) = true /\ Rabs (B2R (fadd a b) - (B2R a + B2R b)) <= M * ulp_half + tiny.
Proof.
  intros Fa Fb HM Hh. assert (H := Bplus_correct prec64 emax64 _ _ mode_NE a b Fa Fb). rewrite Rlt_bool_true in H by (apply rnd_fits; lra).
  destruct H as (E & F & _). split; [exact F|]. unfold fadd. rewrite E. now apply rnd_error.
Qed.
Lemma fsub_err a b M : is_finite a = true -> is_finite b = true -> Rabs (B2R a - B2R b) <= M -> M <= huge ->
  is_finite (fsub a b) = true /\ Rabs (B2R (fsub a b) - (B2R a - B2R b)) <= M * ulp_half + tiny.
Proof.
  intros Fa Fb HM Hh. assert (H := Bminus_correct prec64 emax64 _ _ mode_NE a b Fa Fb). rewrite Rlt_bool_true in H by (apply rnd_fits; lra).
  destruct H as (E & F & _). split; [exact F|]. unfold fsub. rewrite E. now apply rnd_error.
Qed.
Lemma fmul_err a b M : is_finite a = true -> is_finite b = true -> Rabs (B2R a * B2R b) <= M -> M <= huge ->
  is_finite (fmul a b) = true /\ Rabs (B2R (fmul a b) - B2R a * B2R b) <= M * ulp_half + tiny.
Proof.
  intros Fa Fb HM Hh. assert (H := Bmult_correct prec64 emax64 _ _ mode_NE a b). rewrite Rlt_bool_true in H by (apply rnd_fits; lra).
  destruct H as (E & F & _). split; [unfold fmul; rewrite F, Fa, Fb; reflexivity|]. unfold fmul. rewrite E. now apply rnd_error.
Qed.
Lemma fdiv_err a b M : is_finite a = true -> B2R b <> 0 -> Rabs (B2R a / B2R b) <= M -> M <= huge ->
  is_finite (fdiv a b) = true /\ Rabs (B2R (fdiv a b) - B2R a / B2R b) <= M * ulp_half + tiny.
Proof.
  intros Fa Hb HM Hh. assert (H := Bdiv_correct prec64 emax64 _ _ mode_NE a b Hb). rewrite Rlt_bool_true in H by (apply rnd_fits; lra).
  destruct H as (E & F & _). split; [unfold fdiv; rewrite F, Fa; reflexivity|]. unfold fdiv. rewrite E. now apply rnd_error.
Qed.
(** Integers up to 2^53 are exact; others have the error of rounding. *)
Lemma of_Z_err z M : Rabs (IZR z) <= M -> M <= huge -> is_finite (f64_of_Z z) = true /\ Rabs (B2R (f64_of_Z z) - IZR z) <= M * ulp_half + tiny.
Proof.
  intros HM Hh. assert (H := binary_normalize_correct prec64 emax64 _ _ mode_NE z 0 false). cbv zeta in H. replace (F2R (Float radix2 z 0)) with (IZR z) in H by (unfold F2R; simpl; ring).
  rewrite Rlt_bool_true in H by (apply rnd_fits; lra). destruct H as (E & F & _). split; [exact F|]. unfold f64_of_Z, f64_of_Z_exp. rewrite E. now apply rnd_error.
Qed.
Lemma of_Z_exact z : (Z.abs z <= 2 ^ 53)%Z -> is_finite (f64_of_Z z) = true /\ B2R (f64_of_Z z) = IZR z.
Proof.
  intros Hz. assert (H := binary_normalize_correct prec64 emax64 _ _ mode_NE z 0 false). cbv zeta in H. replace (F2R (Float radix2 z 0)) with (IZR z) in H by (unfold F2R; simpl; ring).
  assert (HZ : Rabs (IZR z) <= IZR (2 ^ 53)) by (rewrite <- abs_IZR; now apply IZR_le).
  rewrite Rlt_bool_true in H by (apply rnd_fits, le_huge; eapply Rle_trans; [exact HZ|]; apply IZR_le; lia). destruct H as (E & F & _). split; [exact F|]. unfold f64_of_Z, f64_of_Z_exp. rewrite E.
  apply round_generic; [apply valid_rnd_N|]. change (SpecFloat.fexp prec64 emax64) with (FLT_exp (-1074) 53).
  destruct (Z.eq_dec (Z.abs z) (2 ^ 53)) as [Ez|Ez].
  - apply generic_format_abs_inv. rewrite <- abs_IZR, Ez. change (IZR (2 ^ 53)) with (bpow radix2 53). apply generic_format_bpow. unfold FLT_exp. lia.
  - apply generic_format_FLT. exists (Float radix2 z 0); [unfold F2R; simpl; ring|simpl; lia|simpl; lia].
Qed.
Lemma f1_real : is_finite f1 = true /\ B2R f1 = 1.
Proof. now apply of_Z_exact. Qed.
Lemma fhalf_real : is_finite fhalf = true /\ B2R fhalf = / 2.
Proof. split; [reflexivity|]. unfold fhalf, f64_of_Z_exp. simpl. unfold F2R. simpl. lra. Qed.
