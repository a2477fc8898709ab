(** Rounding errors of [log_sum_exp] (src/lattice.rs) in binary64. *)
From Coq Require Import ZArith Reals Psatz.
From Flocq Require Import Core Relative BinarySingleNaN.
From Verif Require Import Base F64 F64Proofs FloatErr Lattice RealArith SpecNumeric SpecExp DigammaReal DigammaProofs NumericProofs.
Set Implicit Arguments.
Local Open Scope R_scope.

(** ** Real numbers *)
Lemma exp_le a b : a <= b -> exp a <= exp b.
Proof. intros [H| ->]; [left; now apply exp_increasing|right; reflexivity]. Qed.
Lemma ln_le' a b : 0 < a -> a <= b -> ln a <= ln b.
Proof. intros Ha [H| ->]; [left; now apply ln_increasing|right; reflexivity]. Qed.
Lemma le_exp_ln a b : 0 < a -> a <= exp b -> ln a <= b.
Proof. intros Ha H. rewrite <- (ln_exp b). now apply ln_le'. Qed.
Lemma exp_le_ln a b : 0 < b -> exp a <= b -> a <= ln b.
Proof. intros Hb H. rewrite <- (ln_exp a). apply ln_le'; [apply exp_pos|exact H]. Qed.
Lemma exp_ge_1 a : 1 + a <= exp a.
Proof. destruct (Req_dec a 0) as [->|H]; [rewrite exp_0; lra|]. left. now apply exp_ineq1. Qed.
(** Both arguments are off by at most [e]: so is the sum. *)
Lemma lse_lip x z y1 y2 e : 0 < y1 -> 0 < y2 -> Rabs (x - ln y1) <= e -> Rabs (z - ln y2) <= e -> Rabs (ln (exp x + exp z) - ln (y1 + y2)) <= e.
Proof.
  intros H1 H2 Hx Hz. apply Rabs_le_inv in Hx. apply Rabs_le_inv in Hz. assert (Px := exp_pos x). assert (Pz := exp_pos z).
  assert (B : forall w y, 0 < y -> - e <= w - ln y <= e -> y * exp (- e) <= exp w <= y * exp e).
  { intros w y Hy Hw. rewrite <- (exp_ln y Hy) at 1 2. rewrite <- !exp_plus. split; apply exp_le; lra. }
  assert (A1 := B x y1 H1 Hx). assert (A2 := B z y2 H2 Hz). apply Rabs_le. split.
  - assert (ln ((y1 + y2) * exp (- e)) <= ln (exp x + exp z)) by (apply ln_le'; [apply Rmult_lt_0_compat; [lra|apply exp_pos]|lra]). rewrite ln_mult, ln_exp in H by (lra || apply exp_pos). lra.
  - assert (ln (exp x + exp z) <= ln ((y1 + y2) * exp e)) by (apply ln_le'; lra). rewrite ln_mult, ln_exp in H by (lra || apply exp_pos). lra.
Qed.
Lemma ln_sum_size y1 y2 P : 0 < y1 -> 0 < y2 -> Rabs (ln y1) <= P -> Rabs (ln y2) <= P -> Rabs (ln (y1 + y2)) <= P + 1.
Proof.
  intros H1 H2 A1 A2. apply Rabs_le_inv in A1. apply Rabs_le_inv in A2. assert (L1 := ln_le' H1 (ltac:(lra) : y1 <= y1 + y2)).
  assert (B : forall y, 0 < y -> ln y <= P -> y <= exp P) by (intros y Hy HL; rewrite <- (exp_ln y Hy); now apply exp_le).
  assert (B1 := B y1 H1 ltac:(lra)). assert (B2 := B y2 H2 ltac:(lra)). assert (E1 := exp_ge_1 1). apply Rabs_le. split; [lra|]. apply le_exp_ln; [lra|]. rewrite exp_plus. assert (PP := exp_pos P). nra.
Qed.
Lemma exp_lip a b : a <= 0 -> b <= 0 -> Rabs (exp a - exp b) <= Rabs (a - b).
Proof.
  assert (H : forall a b, a <= b -> b <= 0 -> 0 <= exp b - exp a <= b - a).
  { clear. intros a b H H0. split; [assert (E := exp_le H); lra|]. replace (exp b - exp a) with (exp b * (1 - exp (a - b))) by (unfold Rminus; rewrite exp_plus, exp_Ropp; field; apply Rgt_not_eq, exp_pos).
    assert (E1 := exp_ge_1 (a - b)). assert (E2 := exp_le H0). rewrite exp_0 in E2. assert (E3 := exp_pos b). assert (E4 : exp (a - b) <= 1) by (rewrite <- exp_0; apply exp_le; lra). nra. }
  intros Ha Hb. destruct (Rle_or_lt a b) as [L|L].
  - specialize (H a b L Hb). rewrite !Rabs_left1 by lra. lra.
  - specialize (H b a (Rlt_le _ _ L) Ha). rewrite !Rabs_pos_eq by lra. lra.
Qed.
Lemma ln_lip a b : 1 <= a -> 1 <= b -> Rabs (ln a - ln b) <= Rabs (a - b).
Proof.
  assert (H : forall a b, 1 <= a -> a <= b -> 0 <= ln b - ln a <= b - a).
  { clear. intros a b H H0. assert (L := @ln_le' a b ltac:(lra) H0). split; [lra|]. assert (D := @ln_diff b a ltac:(lra) ltac:(lra)).
    assert ((b - a) / a <= b - a); [|lra]. unfold Rdiv. assert (/ a <= 1) by (rewrite <- Rinv_1; apply Rinv_le_contravar; lra). assert (0 < / a) by (apply Rinv_0_lt_compat; lra). nra. }
  intros Ha Hb. destruct (Rle_or_lt a b) as [L|L].
  - specialize (H a b Ha L). rewrite !Rabs_left1 by lra. lra.
  - specialize (H b a Hb (Rlt_le _ _ L)). rewrite !Rabs_pos_eq by lra. lra.
Qed.
Lemma exp_INR n x : exp (INR n * x) = exp x ^ n.
Proof. induction n as [|n IH]; [simpl; rewrite Rmult_0_l; apply exp_0|]. rewrite S_INR, Rmult_plus_distr_r, Rmult_1_l, exp_plus, IH. simpl. ring. Qed.
Lemma exp_m49 : exp (-49) <= ulp_half.
Proof.
  unfold ulp_half. replace (-49) with (- (INR 196 * (1 / 4))) by (rewrite INR_IZR_INZ; simpl; lra). rewrite exp_Ropp. apply Rinv_le_contravar; [lra|]. rewrite exp_INR.
  apply Rle_trans with ((5 / 4) ^ 196); [|apply pow_incr; assert (H := exp_ge_1 (1 / 4)); lra].
  unfold Rdiv. rewrite Rpow_mult_distr, pow_inv, !pow_IZR. apply (Rmult_le_reg_r (IZR (4 ^ Z.of_nat 196))); [apply IZR_lt; reflexivity|].
  rewrite Rmult_assoc, Rinv_l, Rmult_1_r by (apply Rgt_not_eq, IZR_lt; reflexivity). rewrite <- mult_IZR. apply IZR_le. vm_compute. discriminate.
Qed.

(** ** The function *)
Definition unit_error (Q : R) : R := (Q + 64) * ulp_half.
Section Lse.
  Variables (expf lnf : f64 -> f64).
  Hypothesis Hexp : accurate_exp expf.
  Hypothesis Hln : accurate_ln lnf.
  Local Notation A := (f64_arith expf lnf).

  Lemma rnd_le_0 x : x <= 0 -> rnd64 x <= 0.
  Proof. intros H. rewrite <- (@round_0 radix2 (SpecFloat.fexp prec64 emax64) ZnearestE _). apply round_le; [apply (fexp_correct prec64 emax64); exact prec64_gt_0|apply valid_rnd_N|exact H]. Qed.
  Lemma rnd_ge_1 x : 1 <= x -> 1 <= rnd64 x.
  Proof.
    intros H. destruct f1_real as [_ E]. rewrite <- E in H |- *. rewrite <- (@round_generic radix2 (SpecFloat.fexp prec64 emax64) ZnearestE _ (B2R f1)) at 1 by apply generic_format_B2R.
    apply round_le; [apply (fexp_correct prec64 emax64); exact prec64_gt_0|apply valid_rnd_N|exact H].
  Qed.
  Lemma fadd_rnd a b : is_finite a = true -> is_finite b = true -> Rabs (B2R a + B2R b) <= huge -> B2R (fadd a b) = rnd64 (B2R a + B2R b).
  Proof. intros Fa Fb H. assert (HB := Bplus_correct prec64 emax64 _ _ mode_NE a b Fa Fb). rewrite Rlt_bool_true in HB by now apply rnd_fits. apply HB. Qed.
  Lemma fsub_rnd a b : is_finite a = true -> is_finite b = true -> Rabs (B2R a - B2R b) <= huge -> B2R (fsub a b) = rnd64 (B2R a - B2R b).
  Proof. intros Fa Fb H. assert (HB := Bminus_correct prec64 emax64 _ _ mode_NE a b Fa Fb). rewrite Rlt_bool_true in HB by now apply rnd_fits. apply HB. Qed.

  Lemma lse_add (lo hi : f64) Q : is_finite lo = true -> is_finite hi = true -> B2R lo <= B2R hi -> Rabs (B2R lo) <= Q -> Rabs (B2R hi) <= Q -> Q <= 1125899906842624 -> B2R hi - B2R lo <= 51 ->
    let r := fadd hi (lnf (fadd (expf (fsub lo hi)) f1)) in
    is_finite r = true /\ Rabs (B2R r - ln (exp (B2R lo) + exp (B2R hi))) <= unit_error Q.
  Proof.
    intros Fl Fh Hle Ql Qh HQ Hd r. set (d := B2R lo - B2R hi). assert (Hd1 : -51 <= d <= 0) by (unfold d; lra).
    assert (Hx : B2R (fsub lo hi) <= 0) by (rewrite fsub_rnd by (auto; apply le_huge; fold d; rewrite Rabs_left1; lra); now apply rnd_le_0; fold d; lra).
    destruct (@fsub_err lo hi 51 Fl Fh) as [F1 E1]; [fold d; rewrite Rabs_left1; lra|apply le_huge; lra|]. fold d in E1.
    destruct (Hexp _ F1 ltac:(lra)) as (F2 & P2 & E2). assert (Ex1 : exp (B2R (fsub lo hi)) <= 1) by (rewrite <- exp_0; now apply exp_le).
    assert (L1 := @exp_lip _ d Hx ltac:(lra)). assert (Ed1 : exp d <= 1) by (rewrite <- exp_0; apply exp_le; lra). assert (Ed0 := exp_pos d).
    assert (T : bpow radix2 (-1074) <= tiny) by (replace tiny with (bpow radix2 (-200)); [apply bpow_le; lia|unfold tiny; simpl; reflexivity]).
    assert (B52 : bpow radix2 (-52) = 2 * ulp_half) by (unfold ulp_half; simpl; lra). rewrite B52 in E2.
    assert (Hu : 0 < ulp_half <= / 1000000) by (unfold ulp_half; lra). assert (Ht : 0 < tiny <= ulp_half / 1000) by (unfold tiny, ulp_half; lra).
    set (v := B2R (expf (fsub lo hi))) in *. assert (Ev : Rabs (v - exp d) <= 53 * ulp_half + 2 * tiny).
    { replace (v - exp d) with ((v - exp (B2R (fsub lo hi))) + (exp (B2R (fsub lo hi)) - exp d)) by ring. eapply Rle_trans; [apply Rabs_triang|].
      assert (exp (B2R (fsub lo hi)) * (2 * ulp_half) <= 1 * (2 * ulp_half)) by (apply Rmult_le_compat_r; lra). lra. }
    apply Rabs_le_inv in Ev. destruct f1_real as [Fo Eo].
    assert (V2 : Rabs (v + 1) <= 21 / 10) by (rewrite Rabs_pos_eq; lra).
    destruct (@fadd_err (expf (fsub lo hi)) f1 (21 / 10) F2 Fo) as [F3 E3]; [fold v; rewrite Eo; exact V2|apply le_huge; lra|]. fold v in E3. rewrite Eo in E3.
    assert (G3 : 1 <= B2R (fadd (expf (fsub lo hi)) f1)) by (rewrite fadd_rnd; [fold v; rewrite Eo; apply rnd_ge_1; lra|exact F2|exact Fo|fold v; rewrite Eo; apply le_huge; lra]).
    set (w := B2R (fadd (expf (fsub lo hi)) f1)) in *. apply Rabs_le_inv in E3.
    destruct (Hln _ F3 ltac:(fold w; lra)) as (F4 & E4). fold w in E4. set (q := lnf (fadd (expf (fsub lo hi)) f1)) in *.
    assert (Lw : 0 <= ln w <= 2) by (split; [rewrite <- ln_1; apply ln_le'; lra|apply le_exp_ln; [lra|]; assert (H := exp_ge_1 2); lra]).
    rewrite (Rabs_pos_eq (ln w)) in E4 by lra. replace (/ 4503599627370496) with (2 * ulp_half) in E4 by (unfold ulp_half; lra).
    assert (L2 := @ln_lip w (1 + exp d) G3 ltac:(lra)). assert (Ew : Rabs (w - (1 + exp d)) <= 56 * ulp_half) by (apply Rabs_le; lra).
    assert (Eln : ln (exp (B2R lo) + exp (B2R hi)) = B2R hi + ln (1 + exp d)).
    { rewrite <- (ln_exp (B2R hi)) at 2. rewrite <- ln_mult by (try apply exp_pos; lra). f_equal. unfold d, Rminus. rewrite exp_plus, exp_Ropp. field. apply Rgt_not_eq, exp_pos. }
    rewrite Eln. assert (E4' : Rabs (B2R q - ln w) <= 4 * ulp_half) by (eapply Rle_trans; [exact E4|]; replace (4 * ulp_half) with (2 * (2 * ulp_half)) by ring; apply Rmult_le_compat_r; lra).
    assert (Eq : Rabs (B2R q - ln (1 + exp d)) <= 60 * ulp_half).
    { replace (B2R q - ln (1 + exp d)) with ((B2R q - ln w) + (ln w - ln (1 + exp d))) by ring. eapply Rle_trans; [apply Rabs_triang|]. lra. }
    assert (Ld : 0 <= ln (1 + exp d) <= 1) by (split; [rewrite <- ln_1; apply ln_le'; lra|apply le_exp_ln; [lra|]; assert (H := exp_ge_1 1); lra]).
    assert (Qq : Rabs (B2R hi + B2R q) <= Q + 2) by (apply Rabs_le_inv in Eq; apply Rabs_le_inv in Qh; apply Rabs_le; lra).
    destruct (@fadd_err hi q (Q + 2) Fh F4 Qq) as [F5 E5]; [apply le_huge; lra|]. split; [exact F5|]. unfold r. fold q.
    replace (B2R (fadd hi q) - (B2R hi + ln (1 + exp d))) with ((B2R (fadd hi q) - (B2R hi + B2R q)) + (B2R q - ln (1 + exp d))) by ring. eapply Rle_trans; [apply Rabs_triang|]. unfold unit_error. lra.
  Qed.
  Lemma f50_real : is_finite (f64_of_Z 50) = true /\ B2R (f64_of_Z 50) = 50.
  Proof. now apply of_Z_exact. Qed.

  Lemma lse_ordered (lo hi : f64) Q : is_finite lo = true -> is_finite hi = true -> B2R lo <= B2R hi -> Rabs (B2R lo) <= Q -> Rabs (B2R hi) <= Q -> Q <= 1125899906842624 ->
    let r := if fltb (fadd lo (f64_of_Z 50)) hi then hi else fadd hi (lnf (fadd (expf (fsub lo hi)) f1)) in
    is_finite r = true /\ Rabs (B2R r - ln (exp (B2R lo) + exp (B2R hi))) <= unit_error Q.
  Proof.
    intros Fl Fh Hle Ql Qh HQ r. destruct f50_real as [F50 E50]. assert (Q0 := Rabs_pos (B2R lo)).
    assert (Hu : 0 < ulp_half <= / 1000000) by (unfold ulp_half; lra). assert (Ht : 0 < tiny <= ulp_half / 1000) by (unfold tiny, ulp_half; lra).
    destruct (@fadd_err lo (f64_of_Z 50) (Q + 50) Fl F50) as [F1 E1]; [rewrite E50; eapply Rle_trans; [apply Rabs_triang|]; rewrite (Rabs_pos_eq 50); lra|apply le_huge; lra|]. rewrite E50 in E1. apply Rabs_le_inv in E1.
    assert (S1 : (Q + 50) * ulp_half + tiny <= 1) by (unfold ulp_half, tiny; lra).
    unfold r. rewrite fltb_finite by assumption. destruct (Rlt_bool_spec (B2R (fadd lo (f64_of_Z 50))) (B2R hi)) as [H|H].
    - split; [exact Fh|]. assert (Eln : ln (exp (B2R lo) + exp (B2R hi)) = B2R hi + ln (1 + exp (B2R lo - B2R hi))).
      { assert (P := exp_pos (B2R lo - B2R hi)). rewrite <- (ln_exp (B2R hi)) at 2. rewrite <- ln_mult by (try apply exp_pos; lra). f_equal. unfold Rminus. rewrite exp_plus, exp_Ropp. field. apply Rgt_not_eq, exp_pos. }
      rewrite Eln. assert (P := exp_pos (B2R lo - B2R hi)). assert (U : exp (B2R lo - B2R hi) <= ulp_half) by (eapply Rle_trans; [apply exp_le|apply exp_m49]; lra).
      assert (D := @ln_diff (1 + exp (B2R lo - B2R hi)) 1 ltac:(lra) ltac:(lra)). rewrite ln_1 in D. assert (G : 0 <= ln (1 + exp (B2R lo - B2R hi))) by (rewrite <- ln_1; apply ln_le'; lra).
      replace (B2R hi - (B2R hi + ln (1 + exp (B2R lo - B2R hi)))) with (- ln (1 + exp (B2R lo - B2R hi))) by ring. rewrite Rabs_Ropp, Rabs_pos_eq by exact G. unfold unit_error.
      assert (1 * ulp_half <= (Q + 64) * ulp_half) by (apply Rmult_le_compat_r; lra). unfold Rdiv in D. rewrite Rinv_1 in D. lra.
    - apply lse_add; auto. lra.
  Qed.
  Lemma lse_spec (x y : f64) Q : is_finite x = true -> is_finite y = true -> Rabs (B2R x) <= Q -> Rabs (B2R y) <= Q -> Q <= 1125899906842624 ->
    is_finite (log_sum_exp A x y false) = true /\ Rabs (B2R (log_sum_exp A x y false) - ln (exp (B2R x) + exp (B2R y))) <= unit_error Q.
  Proof.
    intros Fx Fy Qx Qy HQ. unfold log_sum_exp. cbn [a_ltb a_add a_fifty a_ln a_exp a_sub a_one f64_arith]. rewrite (fltb_finite y x) by assumption. destruct (Rlt_bool_spec (B2R y) (B2R x)) as [H|H].
    - rewrite (Rplus_comm (exp (B2R x))). apply lse_ordered; auto. lra.
    - now apply lse_ordered.
  Qed.
End Lse.
