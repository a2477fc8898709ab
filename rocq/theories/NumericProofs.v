(** The errors of the scores of the M-step and of the loss (src/prune.rs). *)
From Coq Require Import ZArith Reals Psatz Sorted.
From Flocq Require Import Core Relative BinarySingleNaN.
From Verif Require Import Base BaseProofs F64 F64Proofs FloatErr Model Prune PruneProofs RealArith SpecMarginal SpecDigamma SpecNumeric DigammaReal DigammaProofs.
Set Implicit Arguments.
Local Open Scope R_scope.

(** ** A logarithm that is accurate *)
Definition of_real (r : R) : f64 :=
  let q := rnd64 r in binary_normalize prec64 emax64 _ _ mode_NE (Ztrunc (scaled_mantissa radix2 (SpecFloat.fexp prec64 emax64) q)) (cexp radix2 (SpecFloat.fexp prec64 emax64) q) false.
Lemma of_real_spec r : Rabs r <= huge -> is_finite (of_real r) = true /\ B2R (of_real r) = rnd64 r.
Proof.
  intros H. assert (HF : generic_format radix2 (SpecFloat.fexp prec64 emax64) (rnd64 r)) by (apply generic_format_round; [apply (fexp_correct prec64 emax64); exact prec64_gt_0|apply valid_rnd_N]).
  assert (HB := rnd_fits _ H). unfold of_real. assert (HN := binary_normalize_correct prec64 emax64 _ _ mode_NE (Ztrunc (scaled_mantissa radix2 (SpecFloat.fexp prec64 emax64) (rnd64 r))) (cexp radix2 (SpecFloat.fexp prec64 emax64) (rnd64 r)) false).
  cbv zeta in HN. fold (generic_format) in HF. unfold generic_format in HF. rewrite <- HF in HN. rewrite round_generic in HN; [|apply valid_rnd_N|unfold generic_format; exact HF].
  rewrite Rlt_bool_true in HN by exact HB. destruct HN as (E & F & _). auto.
Qed.
Definition ln64 (x : f64) : f64 := of_real (ln (B2R x)).
Lemma near_one (x : f64) : is_finite x = true -> B2R x <> 1 -> B2R x <= 1 - bpow radix2 (-53) \/ 1 + bpow radix2 (-52) <= B2R x.
Proof.
  intros Fx Hx. assert (HF := generic_format_B2R prec64 emax64 x). assert (Hv : Valid_exp (SpecFloat.fexp prec64 emax64)) by (apply (fexp_correct prec64 emax64); exact prec64_gt_0).
  assert (H1 : generic_format radix2 (SpecFloat.fexp prec64 emax64) 1) by (change 1 with (bpow radix2 0); apply generic_format_bpow; unfold SpecFloat.fexp, SpecFloat.emin, prec64, emax64; simpl; lia).
  destruct (Rtotal_order (B2R x) 1) as [H|[H|H]]; [left|contradiction|right].
  - assert (Hp := @pred_ge_gt radix2 _ Hv _ _ HF H1 H). change 1 with (bpow radix2 0) in Hp at 1. rewrite pred_bpow in Hp. change (SpecFloat.fexp prec64 emax64 0) with (-53)%Z in Hp. exact Hp.
  - assert (Hp := @succ_le_lt radix2 _ Hv _ _ H1 HF H). rewrite succ_eq_pos in Hp by lra. change 1 with (bpow radix2 0) in Hp at 2. rewrite ulp_bpow in Hp. change (SpecFloat.fexp prec64 emax64 (0 + 1)) with (-52)%Z in Hp. exact Hp.
Qed.
Lemma ln_fits (x : f64) : is_finite x = true -> 0 < B2R x -> Rabs (ln (B2R x)) <= huge.
Proof.
  intros Fx Hx. assert (H1 := abs_B2R_lt_emax prec64 emax64 x). rewrite Rabs_pos_eq in H1 by lra. assert (H2 := abs_B2R_ge_emin prec64 emax64 x). assert (Hlow : bpow radix2 (-1074) <= B2R x).
    { destruct x as [| | |[] m e he]; try discriminate; [simpl in Hx; lra|exfalso; revert Hx; apply Rle_not_lt; now apply F2R_le_0|]. specialize (H2 eq_refl). rewrite Rabs_pos_eq in H2 by lra. exact H2. }
    assert (L2 : 0 < ln 2 <= 1) by (split; [rewrite <- ln_1; apply ln_increasing; lra|]; assert (H := @ln_diff 2 1 ltac:(lra) ltac:(lra)); rewrite ln_1 in H; lra).
    assert (Hup : ln (B2R x) <= 1024).
    { apply Rle_trans with (ln (bpow radix2 1024)); [left; now apply ln_increasing|]. rewrite bpow_exp, ln_exp. change (IZR radix2) with 2. change (IZR 1024) with 1024. lra. }
    assert (Hdn : -1074 <= ln (B2R x)).
    { apply Rle_trans with (ln (bpow radix2 (-1074))); [rewrite bpow_exp, ln_exp; change (IZR radix2) with 2; change (IZR (-1074)) with (-1074); lra|]. destruct Hlow as [Hlow| ->]; [left; apply ln_increasing; [apply bpow_gt_0|exact Hlow]|lra]. }
    apply Rle_trans with 1074; [apply Rabs_le; lra|apply le_huge; lra].
Qed.
Lemma ln64_round (x : f64) : is_finite x = true -> 0 < B2R x -> B2R (ln64 x) = rnd64 (ln (B2R x)).
Proof. intros Fx Hx. unfold ln64. apply of_real_spec. now apply ln_fits. Qed.
Lemma ln64_accurate : accurate_ln ln64.
Proof.
  intros x Fx Hx. assert (Hh := ln_fits x Fx Hx).
  destruct (of_real_spec _ Hh) as [F E]. split; [exact F|]. unfold ln64. rewrite E.
  destruct (Req_dec (B2R x) 1) as [E1|E1].
  - rewrite E1, ln_1, round_0 by apply valid_rnd_N. rewrite Rminus_0_r, Rabs_R0. lra.
  - assert (Hlow : bpow radix2 (-60) <= Rabs (ln (B2R x))).
    { assert (Hb : bpow radix2 (-60) = / 1152921504606846976) by (simpl; reflexivity). assert (Hb1 : bpow radix2 (-53) = / 9007199254740992) by (simpl; reflexivity). assert (Hb2 : bpow radix2 (-52) = / 4503599627370496) by (simpl; reflexivity).
      rewrite Hb. destruct (near_one x Fx E1) as [H|H].
      - assert (HL := @ln_diff (B2R x) 1 Hx ltac:(lra)). rewrite ln_1, Rminus_0_r in HL. unfold Rdiv in HL. rewrite Rinv_1, Rmult_1_r in HL. rewrite Hb1 in H. rewrite Rabs_left; lra.
      - assert (HL := @ln_diff 1 (B2R x) ltac:(lra) Hx). rewrite ln_1 in HL. rewrite Hb2 in H. assert (Hi : (1 - B2R x) / B2R x <= - / 1152921504606846976).
        { apply (Rmult_le_reg_r (B2R x)); [exact Hx|]. unfold Rdiv. rewrite Rmult_assoc, Rinv_l by lra. lra. }
        rewrite Rabs_pos_eq; lra. }
    assert (He := @relative_error_N_FLT radix2 (-1074) 53 eq_refl (fun x => negb (Z.even x)) (ln (B2R x)) ltac:(eapply Rle_trans; [|exact Hlow]; apply bpow_le; lia)).
    change (SpecFloat.fexp prec64 emax64) with (FLT_exp (-1074) 53). eapply Rle_trans; [exact He|]. rewrite Rmult_comm. apply Rmult_le_compat_l; [apply Rabs_pos|]. simpl. lra.
Qed.

Lemma Forall2_imp {A B} (P Q : A -> B -> Prop) l l' : (forall a b, P a b -> Q a b) -> Forall2 P l l' -> Forall2 Q l l'.
Proof. intros H. induction 1; constructor; auto. Qed.

(** ** The sum of the frequencies *)
Lemma fadd_half a x : is_finite (fadd a x) = true -> is_finite a = true -> is_finite x = true -> / 2 <= B2R a + B2R x -> / 2 <= B2R (fadd a x).
Proof.
  intros F Fa Fx H. destruct (fadd_finite a x Fa Fx) as [(_ & _ & ->)|(_ & E & _)]; [|rewrite E in F; discriminate]. destruct fhalf_real as [Fh Eh].
  assert (Hv : Valid_exp (SpecFloat.fexp prec64 emax64)) by (apply (fexp_correct prec64 emax64); exact prec64_gt_0).
  rewrite <- Eh in H |- *. rewrite <- (@round_generic radix2 (SpecFloat.fexp prec64 emax64) ZnearestE _ (B2R fhalf)) at 1 by apply generic_format_B2R. apply round_le; [exact Hv|apply valid_rnd_N|exact H].
Qed.
Lemma sum_half xs : forall acc, is_finite acc = true -> / 2 <= B2R acc -> Forall (fun x => is_finite x = true /\ / 2 <= B2R x) xs -> is_finite (fold_left fadd xs acc) = true -> / 2 <= B2R (fold_left fadd xs acc).
Proof.
  induction xs as [|x xs IH]; intros acc Fa Ha HF Fr; [exact Ha|]. inversion HF as [|? ? [Fx Hx] HF']; subst. cbn [fold_left] in *.
  assert (F : is_finite (fadd acc x) = true).
  { destruct (is_finite (fadd acc x)) eqn:E; [reflexivity|]. exfalso. assert (HI : fadd acc x = finf).
    { destruct (fadd_finite acc x Fa Fx) as [(_ & E' & _)|(_ & E' & Es)]; [congruence|]. rewrite E'. clear - Fa Ha. destruct acc as [| | |[] ma ea ha]; try discriminate; [simpl in Ha; lra| |reflexivity]. exfalso. assert (B2R (B754_finite true ma ea ha : f64) <= 0) by now apply F2R_le_0. simpl in *. lra. }
    rewrite HI in Fr. clear - Fr HF'. induction HF' as [|z xs [Fz _] _ IH]; [discriminate|]. cbn [fold_left] in Fr. replace (fadd finf z) with finf in Fr by (destruct z; try discriminate; reflexivity). auto. }
  apply IH; auto. apply fadd_half; auto. lra.
Qed.

Lemma sum_error xs : Forall (fun x => is_finite x = true /\ / 2 <= B2R x) xs -> sum (@B2R prec64 emax64) xs <= huge / 2 -> INR (length xs) <= 4294967296 -> xs <> [] ->
  let total := sum (@B2R prec64 emax64) xs in let y := fold_left fadd xs f0 in
  is_finite y = true /\ Rabs (B2R y - total) <= INR (length xs) * (3 * total * ulp_half) /\ / 2 <= total /\ / 2 <= B2R y.
Proof.
  intros HF HS HN Hne total y. assert (Ht : / 2 <= total).
  { destruct xs as [|x xs]; [contradiction|]. inversion HF as [|? ? [_ Hx] HF']; subst. unfold total. change (sum (@B2R prec64 emax64) (x :: xs)) with (B2R x + sum (@B2R prec64 emax64) xs).
    assert (0 <= sum (@B2R prec64 emax64) xs); [|lra]. clear - HF'. induction HF' as [|x xs [_ Hx] _ IH]; [unfold sum; simpl; lra|]. change (sum (@B2R prec64 emax64) (x :: xs)) with (B2R x + sum (@B2R prec64 emax64) xs). lra. }
  assert (HS' : total <= huge / 2) by exact HS.
  assert (HG : forall l acc accr, Forall (fun x => is_finite x = true /\ / 2 <= B2R x) l -> is_finite acc = true -> 0 <= accr -> accr + sum (@B2R prec64 emax64) l = total ->
    INR (length l) <= INR (length xs) -> Rabs (B2R acc - accr) <= (INR (length xs) - INR (length l)) * (3 * total * ulp_half) ->
    is_finite (fold_left fadd l acc) = true /\ Rabs (B2R (fold_left fadd l acc) - total) <= INR (length xs) * (3 * total * ulp_half)).
  { induction l as [|x l IH]; intros acc accr HFl Fa Ha Hsum Hlen He.
    - cbn [fold_left length INR] in *. change (sum (@B2R prec64 emax64) []) with 0 in Hsum. rewrite Rplus_0_r in Hsum. subst accr. split; [exact Fa|]. rewrite Rminus_0_r in He. exact He.
    - inversion HFl as [|? ? [Fx Hx] HFl']; subst. cbn [fold_left]. change (sum (@B2R prec64 emax64) (x :: l)) with (B2R x + sum (@B2R prec64 emax64) l) in Hsum.
      assert (Hl0 : 0 <= sum (@B2R prec64 emax64) l).
      { clear - HFl'. induction HFl' as [|z l [_ Hz] _ IH]; [unfold sum; simpl; lra|]. change (sum (@B2R prec64 emax64) (z :: l)) with (B2R z + sum (@B2R prec64 emax64) l). lra. }
      assert (HNl := pos_INR (length l)). cbn [length] in *. rewrite S_INR in *. apply abs_le in He.
      assert (Hu : (INR (length xs) - (INR (length l) + 1)) * (3 * total * ulp_half) <= total / 2).
      { apply Rle_trans with (4294967296 * (3 * total * ulp_half)); [apply Rmult_le_compat_r; [unfold ulp_half; lra|lra]|unfold ulp_half; lra]. }
      destruct (@fadd_err acc x (2 * total) Fa Fx) as [F E]; [apply Rabs_le; lra|lra|]. apply abs_le in E.
      apply (IH (fadd acc x) (accr + B2R x) HFl' F); [lra|lra|lra|]. apply Rabs_le.
      replace ((INR (length xs) - INR (length l)) * (3 * total * ulp_half)) with ((INR (length xs) - (INR (length l) + 1)) * (3 * total * ulp_half) + 3 * total * ulp_half) by ring.
      assert (tiny <= total * ulp_half) by (unfold tiny, ulp_half; lra). lra. }
  destruct (HG xs f0 0 HF eq_refl ltac:(lra) ltac:(unfold total; lra) ltac:(lra)) as [F E].
  - change (B2R f0) with 0. replace (0 - 0) with 0 by ring. rewrite Rabs_R0. rewrite Rminus_diag_eq by reflexivity. lra.
  - split; [exact F|]. split; [exact E|]. split; [exact Ht|]. unfold y. destruct xs as [|x xs]; [contradiction|]. inversion HF as [|? ? [Fx Hx] HF']; subst. cbn [fold_left] in *.
    destruct (@fadd_err f0 x (huge / 2) eq_refl Fx) as [F1 _]; [change (B2R f0) with 0|unfold huge; assert (Hp := bpow_gt_0 radix2 1000); lra|].
    { assert (0 <= sum (@B2R prec64 emax64) xs); [|change (sum (@B2R prec64 emax64) (x :: xs)) with (B2R x + sum (@B2R prec64 emax64) xs) in HS; apply Rabs_le; lra].
      clear - HF'. induction HF' as [|z l [_ Hz] _ IH]; [unfold sum; simpl; lra|]. change (sum (@B2R prec64 emax64) (z :: l)) with (B2R z + sum (@B2R prec64 emax64) l). lra. }
    apply sum_half; auto. apply fadd_half; auto. change (B2R f0) with 0. lra.
Qed.
Lemma digamma_near a b v w : / 4 <= a -> / 2 <= b -> Rabs (a - b) <= b / 2 -> digamma_at a v -> digamma_at b w -> Rabs (v - w) <= 12 * (Rabs (a - b) * / b).
Proof.
  intros Ha Hb Hab Hv Hw. assert (Hib : 0 < / b <= 2) by (split; [apply Rinv_0_lt_compat; lra|replace 2 with (/ (/ 2)) by field; apply Rinv_le_contravar; lra]).
  assert (Hia : 0 < / a <= 4) by (split; [apply Rinv_0_lt_compat; lra|replace 4 with (/ (/ 4)) by field; apply Rinv_le_contravar; lra]).
  destruct (Rle_or_lt a b) as [H|H].
  - assert (HR := @digamma_relative a b v w ltac:(lra) Hv Hw). rewrite Rabs_left1 in Hab |- * by lra. rewrite Rabs_left1 by lra.
    assert (Hia2 : / a <= 2 * / b). { replace (2 * / b) with (/ (b / 2)) by (field; lra). apply Rinv_le_contravar; lra. }
    assert ((1 + / a) * (b - a) * / a <= 5 * (b - a) * (2 * / b)). { apply Rmult_le_compat; try lra; [apply Rmult_le_pos; lra|]. apply Rmult_le_compat_r; lra. }
    assert (0 <= (b - a) * / b) by (apply Rmult_le_pos; lra). lra.
  - assert (HR := @digamma_relative b a w v ltac:(lra) Hw Hv). rewrite Rabs_pos_eq in Hab |- * by lra. rewrite Rabs_pos_eq by lra.
    assert ((1 + / b) * (a - b) * / b <= 3 * (a - b) * / b). { apply Rmult_le_compat_r; [lra|]. apply Rmult_le_compat_r; lra. }
    assert (0 <= (a - b) * / b) by (apply Rmult_le_pos; lra). lra.
Qed.

(** ** The M-step *)
Lemma fmax_half_real f : is_finite f = true -> is_finite (fmax f fhalf) = true /\ B2R (fmax f fhalf) = Rmax (B2R f) (/ 2).
Proof.
  intros F. destruct fhalf_real as [Fh Eh]. unfold fmax. replace (f_is_nan f) with false by (destruct f; try discriminate; reflexivity).
  rewrite fltb_finite by assumption. destruct (Rlt_bool_spec (B2R f) (B2R fhalf)) as [H|H]; rewrite Eh in H.
  - split; [exact Fh|]. rewrite Rmax_right by lra. exact Eh.
  - split; [exact F|]. rewrite Rmax_left by lra. reflexivity.
Qed.
Definition at_least_half (freqs : list f64) (i : nat) : R := Rmax (B2R (nth i freqs f0)) (/ 2).
Lemma huge_split : 4294967296 * bpow radix2 900 <= huge / 2.
Proof. unfold huge. replace 4294967296 with (bpow radix2 32) by (simpl; reflexivity). rewrite <- bpow_plus. replace 1000%Z with (999 + 1)%Z by reflexivity. rewrite (bpow_plus radix2 999 1). replace (bpow radix2 1) with 2 by (simpl; reflexivity).
  assert (H := bpow_le radix2 (32 + 900) 999 ltac:(lia)). lra. Qed.
Lemma m_step_error lnf fuel m freqs : accurate_ln lnf -> (7 <= fuel)%nat -> length freqs = length (m_vocab m) -> INR (length freqs) <= 4294967296 ->
  Forall (fun f => is_finite f = true /\ B2R f <= bpow radix2 900) freqs ->
  exists v ids, m_step lnf fuel m freqs = Ok v /\ StronglySorted lt ids /\
    (forall i, In i ids <-> exists t, nth_error (m_vocab m) i = Some t /\ (st_keep t = true \/ / 2 <= B2R (nth i freqs f0))) /\
    forall psi, digamma_at (sum (at_least_half freqs) ids) psi ->
      Forall2 (fun i t' => forall phi, digamma_at (at_least_half freqs i) phi -> Rabs (B2R (st_score t') - (phi - psi)) <= 2 / 10000000000 + INR (length ids) / 100000000000000) ids v.
Proof.
  intros Hln Hfuel Hl HN HF. destruct (m_select_spec freqs (m_vocab m) Hl) as (ids & HS & HI & HC).
  assert (Hfr : forall i, (i < length freqs)%nat -> is_finite (nth i freqs f0) = true /\ B2R (nth i freqs f0) <= bpow radix2 900) by (intros i Hi; rewrite Forall_forall in HF; apply HF, nth_In, Hi).
  assert (Hnth : forall i f, nth_error freqs i = Some f -> nth i freqs f0 = f /\ (i < length freqs)%nat) by (intros i f Hf; split; [now apply nth_error_nth|apply nth_error_Some; congruence]).
  assert (Hids : forall i, In i ids <-> exists t, nth_error (m_vocab m) i = Some t /\ (st_keep t = true \/ / 2 <= B2R (nth i freqs f0))).
  { intros i. rewrite HI. assert (Hb : forall f, is_finite f = true -> (fltb f fhalf = false <-> / 2 <= B2R f)).
    { intros f Ff. destruct fhalf_real as [Fh Eh]. rewrite fltb_finite by assumption. rewrite Eh. destruct (Rlt_bool_spec (B2R f) (/ 2)); split; intros; try discriminate; lra || reflexivity. }
    split.
    - intros (f & t & Hf & Ht & H). exists t. split; [exact Ht|]. destruct (Hnth _ _ Hf) as [<- Hi]. rewrite Hb in H by now apply Hfr. exact H.
    - intros (t & Ht & H). assert (Hi : (i < length freqs)%nat) by (rewrite Hl; apply nth_error_Some; congruence). exists (nth i freqs f0), t. split; [now apply nth_error_nth'|]. split; [exact Ht|]. now rewrite Hb by now apply Hfr. }
  set (toks := m_select freqs (m_vocab m)) in *.
  assert (HCr : Forall2 (fun i t' => is_finite (st_score t') = true /\ B2R (st_score t') = at_least_half freqs i /\ at_least_half freqs i <= bpow radix2 900) ids toks).
  { eapply Forall2_imp; [|exact HC]. cbv beta. intros i t' (f & t & Hf & Ht & ->). destruct (Hnth _ _ Hf) as [Ef Hi]. destruct (Hfr _ Hi) as [Ff Bf]. subst f. destruct (fmax_half_real _ Ff) as [Fm Em].
    unfold clone_with_score, at_least_half. cbn [st_score]. split; [exact Fm|]. split; [exact Em|]. apply Rmax_lub; [exact Bf|]. assert (Hp := bpow_le radix2 0 900 ltac:(lia)). simpl bpow at 1 in Hp. lra. }
  assert (Hlen : (length ids <= length freqs)%nat).
  { rewrite <- (seq_length (length freqs) 0). apply NoDup_incl_length; [apply StronglySorted_lt_NoDup; exact HS|]. intros i Hi. apply HI in Hi as (f & t & Hf & _). apply in_seq. destruct (Hnth _ _ Hf). lia. }
  apply le_INR in Hlen.
  assert (Hsum : sum (@B2R prec64 emax64) (map st_score toks) = sum (at_least_half freqs) ids /\ sum (at_least_half freqs) ids <= INR (length ids) * bpow radix2 900).
  { clear - HCr. clearbody toks. induction HCr as [|i t ids toks (_ & E & B) _ [IH1 IH2]]; [split; [reflexivity|unfold sum; simpl; lra]|]. cbn [map length]. unfold sum in *. cbn [map fold_right]. rewrite E, IH1. split; [reflexivity|]. rewrite S_INR. lra. }
  assert (Hfold : fold_left (fun x t => fadd x (st_score t)) toks f0 = fold_left fadd (map st_score toks) f0).
  { clear. generalize f0. induction toks as [|t toks IH]; intros a; [reflexivity|apply IH]. }
  assert (HH := huge_split). assert (Hp9 := bpow_gt_0 radix2 900).
  assert (Hbig : INR (length ids) * bpow radix2 900 <= huge / 2) by (eapply Rle_trans; [|exact HH]; apply Rmult_le_compat_r; lra).
  assert (HT : exists total, digamma lnf fuel (fold_left (fun x t => fadd x (st_score t)) toks f0) = Ok total /\ (ids <> [] -> is_finite total = true /\ Rabs (B2R total) <= 1031 /\
    forall psi, digamma_at (sum (at_least_half freqs) ids) psi -> Rabs (B2R total - psi) <= 6 / 100000000000 + 36 * INR (length ids) * ulp_half)).
  { destruct (list_eq_dec Nat.eq_dec ids []) as [->|Hne].
    - inversion HCr. destruct (@digamma_ends lnf fuel f0 Hfuel (or_intror eq_refl)) as [y Hy]. exists y. split; [exact Hy|]. congruence.
    - rewrite Hfold. destruct (@sum_error (map st_score toks)) as (Fy & Ey & Ht & Hh).
      + apply Forall_forall. intros x Hx. apply in_map_iff in Hx as (t & <- & Ht). clear - HCr Ht. clearbody toks. induction HCr as [|i t' ids toks (F & E & B) _ IH]; [contradiction|]. destruct Ht as [->|Ht]; [|auto]. split; [exact F|]. rewrite E. apply Rmax_r.
      + rewrite (proj1 Hsum). lra.
      + rewrite map_length, <- (Forall2_len HCr). lra.
      + intros H. apply Hne. apply length_zero_iff_nil. rewrite (Forall2_len HCr), <- (map_length st_score). now rewrite H.
      + rewrite (proj1 Hsum) in *. rewrite map_length, <- (Forall2_len HCr) in Ey. set (S := sum (at_least_half freqs) ids) in *. set (y := fold_left fadd (map st_score toks) f0) in *. clearbody S y.
        assert (Hn0 := pos_INR (length ids)).
        assert (Hrel : INR (length ids) * (3 * S * ulp_half) <= S * (3 * 4294967296 * ulp_half)) by (replace (S * (3 * 4294967296 * ulp_half)) with (4294967296 * (3 * S * ulp_half)) by ring; apply Rmult_le_compat_r; [unfold ulp_half; lra|lra]).
        assert (Hy := abs_le _ _ Ey). assert (Hyr : / 4 <= B2R y <= huge) by (unfold ulp_half in *; lra).
        destruct (@digamma_exists (B2R y) ltac:(lra)) as [w Hw]. destruct (@digamma_error lnf fuel y w Hln Hfuel Fy) as (d & Hd & Fd & Ed & Bd); [|exact Hw|].
        { lra. }
        exists d. split; [exact Hd|]. intros _. split; [exact Fd|]. split; [exact Bd|]. intros psi Hpsi.
        assert (HD := @digamma_near (B2R y) S w psi ltac:(lra) Ht ltac:(unfold ulp_half in *; lra) Hw Hpsi).
        assert (Hq : Rabs (B2R y - S) * / S <= INR (length ids) * (3 * ulp_half)).
        { apply (Rmult_le_reg_r S); [lra|]. rewrite Rmult_assoc, Rinv_l by lra. lra. }
        apply abs_le in Ed, HD. apply Rabs_le. lra. }
  destruct HT as (total & HT & Htot). destruct (m_scores_ends lnf total Hfuel (m_select_nonneg freqs (m_vocab m))) as [scores Hsc].
  unfold m_step, vocab_size. rewrite <- Hl, Nat.eqb_refl. fold toks in Hsc |- *. rewrite HT. cbn [bind]. rewrite Hsc. cbn [bind]. apply m_scores_spec in Hsc.
  set (Q := fun (i : nat) (s : f64) => is_finite s = true /\ forall psi phi, digamma_at (sum (at_least_half freqs) ids) psi -> digamma_at (at_least_half freqs i) phi -> Rabs (B2R s - (phi - psi)) <= 2 / 10000000000 + INR (length ids) / 100000000000000).
  assert (Hone : Forall2 Q ids scores).
  { assert (Hne : forall i, In i ids -> ids <> []) by (intros i H ->; contradiction). assert (Hn0 := pos_INR (length ids)).
    assert (G : forall i t s, In i ids -> is_finite (st_score t) = true /\ B2R (st_score t) = at_least_half freqs i /\ at_least_half freqs i <= bpow radix2 900 -> (exists d, digamma lnf fuel (st_score t) = Ok d /\ s = fsub d total) -> Q i s).
    { intros i t s Hi (Ft & Et & Bt) (d & Hd & ->). destruct (Htot (Hne i Hi)) as (F & B & EE).
      assert (Hge : / 2 <= at_least_half freqs i) by apply Rmax_r. assert (H9 : bpow radix2 900 <= huge) by (apply bpow_le; lia).
      destruct (@digamma_exists (B2R (st_score t)) ltac:(lra)) as [phi Hphi]. destruct (@digamma_error lnf fuel (st_score t) phi Hln Hfuel Ft ltac:(lra) Hphi) as (d' & Hd' & Fd & Ed & Bd).
      rewrite Hd in Hd'. injection Hd' as <-. apply DigammaReal.Rabs_le_inv in B, Bd. destruct (@fsub_err d total 2062 Fd F) as [Fs Es]; [apply Rabs_le; lra|apply le_huge; lra|].
      split; [exact Fs|]. intros psi phi' Hpsi Hphi'. rewrite <- Et in Hphi'. rewrite (digamma_unique Hphi' Hphi). specialize (EE _ Hpsi). apply abs_le in Es, Ed, EE. apply Rabs_le. unfold ulp_half, tiny in *. lra. }
    clear - HCr Hsc G. clearbody toks Q. revert scores Hsc. induction HCr as [|i t ids toks H _ IH]; intros scores Hsc; inversion Hsc as [|? s ? scores' Hs Hsc']; subst; constructor; [apply (G i t); simpl; auto|]. apply IH; auto. intros; eapply G; simpl; eauto. }
  replace (existsb _ scores) with false.
  - exists (with_scores toks scores), ids. split; [reflexivity|]. split; [exact HS|]. split; [exact Hids|]. intros psi Hpsi.
    assert (HW : Forall2 (fun s t' => st_score t' = s) scores (with_scores toks scores)).
    { assert (HL := Forall2_len Hsc). clear - HL. clearbody toks. revert scores HL. induction toks as [|t toks IH]; intros [|s scores] HL; try discriminate; constructor; [reflexivity|]. apply IH. now injection HL. }
    clear - Hone HW Hpsi. revert HW. generalize (with_scores toks scores). intros w HW. assert (G : forall ids', Forall2 Q ids' scores ->
      Forall2 (fun i t' => forall phi, digamma_at (at_least_half freqs i) phi -> Rabs (B2R (st_score t') - (phi - psi)) <= 2 / 10000000000 + INR (length ids) / 100000000000000) ids' w).
    { clear Hone. induction HW as [|s t' scores w E _ IH]; intros ids' H; inversion H as [|i ? ids'' ? [_ Hi]]; subst; constructor; auto. }
    apply G, Hone.
  - symmetry. clear - Hone. destruct (existsb _ scores) eqn:E; [|reflexivity]. apply existsb_exists in E as (s & Hs & E). exfalso.
    assert (G : forall l (P : nat -> f64 -> Prop), Forall2 (fun i s => is_finite s = true /\ P i s) l scores -> is_finite s = true). { clear - Hs. intros l P H. revert Hs. induction H as [|i x l scores [F _] _ IH]; intros Hs; [contradiction|]. destruct Hs as [->|Hs]; auto. }
    apply G in Hone. destruct s as [| | |]; discriminate.
Qed.

(** ** The loss *)
Lemma of_nat_exact n : INR n <= 9007199254740992 -> is_finite (f64_of_nat n) = true /\ B2R (f64_of_nat n) = INR n.
Proof. intros H. unfold f64_of_nat. rewrite INR_IZR_INZ in *. apply of_Z_exact. rewrite Z.abs_eq by lia. apply le_IZR. exact H. Qed.
Lemma ln2_bounds : 0 < ln 2 <= 1.
Proof. split; [rewrite <- ln_1; apply ln_increasing; lra|]. assert (H := @ln_diff 2 1 ltac:(lra) ltac:(lra)). rewrite ln_1 in H. lra. Qed.
(** The logarithm of a number of at most 86 bits. *)
Lemma ln_small x : 1 <= x <= 77371252455336267181195264 -> 0 <= ln x <= 86.
Proof.
  intros Hx. split; [rewrite <- ln_1; destruct (proj1 Hx) as [H| <-]; [left; apply ln_increasing; lra|lra]|].
  apply Rle_trans with (ln (bpow radix2 86)).
  - replace (bpow radix2 86) with 77371252455336267181195264 by (simpl; reflexivity). destruct (proj2 Hx) as [H| ->]; [left; apply ln_increasing; lra|lra].
  - rewrite bpow_exp, ln_exp. change (IZR radix2) with 2. change (IZR 86) with 86. assert (H := ln2_bounds). lra.
Qed.
Lemma big_huge x : x <= 77371252455336267181195264 -> x <= huge.
Proof. intros H. apply Rle_trans with (1 := H). unfold huge. change 77371252455336267181195264 with (bpow radix2 86). apply bpow_le. lia. Qed.
(** [lnf] of a number [x] known with relative error 4u. *)
Lemma ln_rel lnf x z : accurate_ln lnf -> is_finite x = true -> 1 <= z <= 77371252455336267181195264 -> Rabs (B2R x - z) <= z * (4 * ulp_half) ->
  is_finite (lnf x) = true /\ Rabs (B2R (lnf x) - ln z) <= 182 * ulp_half.
Proof.
  intros Hln Fx Hz He. apply abs_le in He. assert (Hu : 0 < ulp_half /\ ulp_half <= / 1000000) by (unfold ulp_half; lra).
  assert (Hzu : 0 <= z * (4 * ulp_half) <= z / 1000).
  { split; [apply Rmult_le_pos; lra|]. unfold Rdiv. apply Rmult_le_compat_l; lra. }
  assert (Hx : 0 < B2R x) by lra. destruct (Hln x Fx Hx) as [F E]. split; [exact F|].
  assert (Hx2 : z * (1 - 4 * ulp_half) <= B2R x) by lra.
  assert (D1 : ln (B2R x) - ln z <= 4 * ulp_half). { eapply Rle_trans; [apply ln_diff; lra|]. apply (Rmult_le_reg_r z); [lra|]. unfold Rdiv. rewrite Rmult_assoc, Rinv_l by lra. lra. }
  assert (D2 : ln z - ln (B2R x) <= 5 * ulp_half).
  { eapply Rle_trans; [apply ln_diff; lra|]. apply (Rmult_le_reg_r (B2R x)); [lra|]. unfold Rdiv. rewrite Rmult_assoc, Rinv_l by lra.
    apply Rle_trans with (5 * ulp_half * (z * (1 - 4 * ulp_half))); [|apply Rmult_le_compat_l; lra]. unfold ulp_half in *. lra. }
  assert (HL := @ln_small z ltac:(lra)). assert (HB : Rabs (ln (B2R x)) <= 86 + 5 * ulp_half) by (apply Rabs_le; lra).
  assert (H2 : Rabs (ln (B2R x)) * / 4503599627370496 <= (86 + 5 * ulp_half) * (2 * ulp_half)). { replace (/ 4503599627370496) with (2 * ulp_half) by (unfold ulp_half; lra). apply Rmult_le_compat_r; lra. }
  assert (E' := abs_le _ _ E). apply Rabs_le. unfold ulp_half in *. lra.
Qed.
Lemma ln_ratio a b : 0 < a -> 0 < b -> ln (a / b) = ln a - ln b.
Proof. intros Ha Hb. unfold Rdiv. rewrite ln_mult by (auto; now apply Rinv_0_lt_compat). rewrite ln_Rinv by exact Hb. ring. Qed.

Section Loss.
  Variables (lnf : f64 -> f64) (counts : list nat) (V N n : nat).
  Hypothesis Hln : accurate_ln lnf.
  Let T := INR (list_sum counts).
  Hypothesis HT : T <= 9007199254740992.
  Hypothesis Hn : 1 <= INR n <= T.
  Hypothesis HV : INR V <= 4294967296.
  Hypothesis HN : 1 <= INR N <= 9007199254740992.
  Let A := T + INR n * INR (V - 1).
  Lemma A_bounds : 1 <= A /\ T <= A /\ A <= 60000000000000000000000000 /\ INR (V - 1) <= 4294967296 /\ 0 <= INR n * INR (V - 1).
  Proof.
    assert (H1 : INR (V - 1) <= 4294967296) by (eapply Rle_trans; [apply le_INR|exact HV]; lia). assert (H0 := pos_INR (V - 1)).
    assert (H2 : 0 <= INR n * INR (V - 1)) by (apply Rmult_le_pos; lra). assert (H3 : INR n * INR (V - 1) <= 9007199254740992 * 4294967296) by (apply Rmult_le_compat; lra). unfold A. lra.
  Qed.
  Let alt_logsum := lnf (fadd (f64_of_nat (list_sum counts)) (fmul (f64_of_nat n) (f64_of_nat (V - 1)))).
  Lemma alt_logsum_error : is_finite alt_logsum = true /\ Rabs (B2R alt_logsum - ln A) <= 182 * ulp_half.
  Proof.
    destruct A_bounds as (B1 & B2 & B3 & B4 & B5). destruct (of_nat_exact _ HT) as [Fs Es]. destruct (@of_nat_exact n ltac:(lra)) as [Fn En]. destruct (@of_nat_exact (V - 1) ltac:(lra)) as [Fv Ev].
    assert (HA := eq_refl A). unfold A at 2 in HA. fold T in Es.
    destruct (@fmul_err (f64_of_nat n) (f64_of_nat (V - 1)) A Fn Fv) as [Fm Em]; [rewrite En, Ev; apply Rabs_le; lra|apply big_huge; lra|]. rewrite En, Ev in Em. apply abs_le in Em.
    assert (Ht : tiny <= A * ulp_half / 4) by (unfold tiny, ulp_half; lra).
    assert (Hu : A * ulp_half <= A / 1000) by (unfold ulp_half; lra).
    destruct (@fadd_err (f64_of_nat (list_sum counts)) _ (A * (101 / 100)) Fs Fm) as [Fa Ea]; [rewrite Es; apply Rabs_le; lra|apply big_huge; lra|]. rewrite Es in Ea. apply abs_le in Ea.
    apply ln_rel; [exact Hln|exact Fa|lra|]. apply Rabs_le. lra.
  Qed.
  Lemma alt_error : forall alts k acc accr r, INR (k + length alts) <= 1073741824 -> is_finite acc = true -> Rabs accr <= 88 * INR k -> Rabs (B2R acc - accr) <= INR k * ((600 + 100 * INR (k + length alts)) * ulp_half) ->
    alt_logprob lnf counts (f64_of_nat n) alt_logsum alts acc = Ok r ->
    is_finite r = true /\ Rabs (B2R r - (accr + sum (fun a => ln ((INR (nth (N.to_nat a) counts 0%nat) + INR n) / A)) alts)) <= INR (k + length alts) * ((600 + 100 * INR (k + length alts)) * ulp_half) /\
    Rabs (accr + sum (fun a => ln ((INR (nth (N.to_nat a) counts 0%nat) + INR n) / A)) alts) <= 88 * INR (k + length alts).
  Proof.
    induction alts as [|a alts IH]; intros k acc accr r Hk Fa Hr He H; cbn [alt_logprob] in H.
    - injection H as <-. cbn [length] in *. rewrite Nat.add_0_r in *. unfold sum. cbn [map fold_right]. rewrite Rplus_0_r. auto.
    - unfold index in H. destruct (nth_error counts (N.to_nat a)) as [x|] eqn:Ex; [|discriminate]. cbn [bind] in H.
      assert (Hx : INR x <= T). { apply le_INR. clear - Ex. revert Ex. generalize (N.to_nat a). induction counts as [|y l IHl]; intros [|i] H; try discriminate; simpl in *; [injection H as ->; lia|]. specialize (IHl _ H). lia. }
      assert (Hx0 := pos_INR x). destruct A_bounds as (B1 & B2 & B3 & B4 & B5). destruct alt_logsum_error as [Fl El]. destruct (@of_nat_exact n ltac:(lra)) as [Fn En]. destruct (@of_nat_exact x ltac:(lra)) as [Fx Ex'].
      destruct (@fadd_err (f64_of_nat x) (f64_of_nat n) (INR x + INR n) Fx Fn) as [Fy Ey]; [rewrite Ex', En; rewrite Rabs_pos_eq; lra|apply le_huge; lra|]. rewrite Ex', En in Ey.
      destruct (@ln_rel lnf _ (INR x + INR n) Hln Fy) as [Fz Ez]; [lra|eapply Rle_trans; [exact Ey|unfold ulp_half, tiny; lra]|].
      assert (L1 := @ln_small (INR x + INR n) ltac:(lra)). assert (L2 := @ln_small A ltac:(lra)). apply abs_le in Ez. assert (El' := abs_le _ _ El).
      destruct (@fsub_err _ _ 87 Fz Fl) as [Ft Et]; [apply Rabs_le; unfold ulp_half in *; lra|apply le_huge; lra|]. apply abs_le in Et.
      set (t := fsub _ _) in *. clearbody t. cbn [length] in *. rewrite <- plus_n_Sm, <- plus_Sn_m in *. assert (Hk1 : INR (S k) <= INR (S k + length alts)) by (apply le_INR; lia). rewrite S_INR in Hk1. assert (Hk0 := pos_INR k).
      assert (Hlt : INR k * ((600 + 100 * INR (S k + length alts)) * ulp_half) <= INR k).
      { rewrite <- (Rmult_1_r (INR k)) at 2. apply Rmult_le_compat_l; [lra|]. unfold ulp_half. lra. }
      apply abs_le in He. apply DigammaReal.Rabs_le_inv in Hr.
      assert (Ha : Rabs (B2R acc + B2R t) <= 90 * INR (S k)) by (rewrite S_INR; apply Rabs_le; unfold ulp_half, tiny in *; lra).
      destruct (@fadd_err acc t (90 * INR (S k)) Fa Ft Ha) as [Fs Es]; [apply le_huge; rewrite S_INR; lra|]. apply abs_le in Es.
      assert (Hterm : ln ((INR x + INR n) / A) = ln (INR x + INR n) - ln A) by (apply ln_ratio; lra).
      assert (Enth : nth (N.to_nat a) counts 0%nat = x) by now apply nth_error_nth.
      unfold sum in *. cbn [map fold_right]. rewrite Enth, Hterm. rewrite <- Rplus_assoc.
      apply (IH (S k) (fadd acc t)); [exact Hk|exact Fs|rewrite S_INR; apply Rabs_le; lra| |exact H].
      rewrite S_INR. replace ((INR k + 1) * ((600 + 100 * INR (S k + length alts)) * ulp_half)) with (INR k * ((600 + 100 * INR (S k + length alts)) * ulp_half) + (600 + 100 * INR (S k + length alts)) * ulp_half) by ring.
      assert (Hm : 90 * INR (S k) * ulp_half <= 100 * INR (S k + length alts) * ulp_half) by (apply Rmult_le_compat_r; [unfold ulp_half; lra|rewrite S_INR; lra]).
      assert (Htn : tiny <= ulp_half) by (unfold tiny, ulp_half; lra). apply Rabs_le. unfold Rdiv in *. lra.
  Qed.
  Lemma loss_error alts x : INR (length alts) <= 1073741824 -> loss lnf counts V N n alts = Ok x ->
    is_finite x = true /\ Rabs (B2R x - exact_loss counts V N n alts) <= INR n / INR N * (2000 * (INR (length alts) + 1) ^ 2 * ulp_half).
  Proof.
    intros Hk H. unfold loss in H. cbv zeta in H. fold alt_logsum in H. destruct (alt_logprob _ _ _ _ _ _) as [alt| | |] eqn:EA in H; try discriminate. cbn [bind] in H. injection H as <-.
    destruct (@alt_error alts 0 f0 0 alt) as (Fa & Ea & Ba); auto; [simpl; rewrite Rabs_R0; lra|change (B2R f0) with 0; simpl; rewrite Rminus_0_r, Rabs_R0; lra|]. rewrite Rplus_0_l in *. cbn [Nat.add] in *.
    unfold exact_loss. cbv zeta. fold T. fold A. set (S := sum _ alts) in *. clearbody S. set (k := INR (length alts)) in *. assert (Hk0 : 0 <= k) by apply pos_INR. clearbody k.
    destruct A_bounds as (B1 & B2 & B3 & B4 & B5). destruct (of_nat_exact _ HT) as [Fs Es]. fold T in Es. destruct (@of_nat_exact n ltac:(lra)) as [Fn En]. destruct (@of_nat_exact N ltac:(lra)) as [FN EN].
    destruct (@ln_rel lnf (f64_of_nat n) (INR n) Hln Fn) as [F1 E1]; [lra|rewrite En; rewrite Rminus_diag_eq, Rabs_R0 by reflexivity; unfold ulp_half; lra|].
    destruct (@ln_rel lnf (f64_of_nat (list_sum counts)) T Hln Fs) as [F2 E2]; [lra|rewrite Es; rewrite Rminus_diag_eq, Rabs_R0 by reflexivity; unfold ulp_half; lra|].
    assert (L1 := @ln_small (INR n) ltac:(lra)). assert (L2 := @ln_small T ltac:(lra)). rewrite ln_ratio by lra. set (ln_n := ln (INR n)) in *. set (ln_T := ln T) in *. clearbody ln_n ln_T. apply abs_le in E1, E2.
    destruct (@fsub_err _ _ 87 F1 F2) as [F3 E3]; [apply Rabs_le; unfold ulp_half in *; lra|apply le_huge; lra|]. apply abs_le in E3. set (logprob := fsub (lnf _) (lnf _)) in *. clearbody logprob.
    apply abs_le in Ea. apply DigammaReal.Rabs_le_inv in Ba.
    assert (Hlt : k * ((600 + 100 * k) * ulp_half) <= k). { rewrite <- (Rmult_1_r k) at 3. apply Rmult_le_compat_l; [lra|]. unfold ulp_half. lra. }
    destruct (@fsub_err logprob alt (90 + 90 * k) F3 Fa) as [F4 E4]; [apply Rabs_le; unfold ulp_half, tiny in *; lra|apply le_huge; lra|]. apply abs_le in E4. set (D := fsub logprob alt) in *. clearbody D.
    set (q := INR n / INR N). assert (HiN : / 9007199254740992 <= / INR N <= 1). { split; [apply Rinv_le_contravar; lra|]. rewrite <- Rinv_1. apply Rinv_le_contravar; lra. }
    assert (Hq : / 9007199254740992 <= q <= 9007199254740992). { unfold q, Rdiv. split; [apply Rle_trans with (1 * / INR N); [lra|apply Rmult_le_compat_r; lra]|]. apply Rle_trans with (INR n * 1); [apply Rmult_le_compat_l; lra|lra]. }
    destruct (@fdiv_err (f64_of_nat n) (f64_of_nat N) q Fn) as [F5 E5]; [rewrite EN; lra|rewrite En, EN; fold q; rewrite Rabs_pos_eq; lra|apply le_huge; lra|]. rewrite En, EN in E5. fold q in E5. apply abs_le in E5. set (Q := fdiv _ _) in *. clearbody Q q.
    assert (Ht : tiny <= q * ulp_half) by (unfold tiny, ulp_half; lra). assert (Htt : tiny <= q * (ulp_half * ulp_half)) by (unfold tiny, ulp_half; lra).
    set (e := ln_n - ln_T - S) in *.
    assert (HDb : Rabs (B2R D) <= 91 + 91 * k) by (apply Rabs_le; unfold ulp_half, tiny in *; lra).
    assert (HQ : 0 <= B2R Q <= 2 * q) by (unfold ulp_half in *; lra).
    assert (HD : Rabs (B2R D - e) <= (1000 + 1000 * k + 100 * k * k) * ulp_half).
    { apply Rabs_le. unfold e. replace (k * ((600 + 100 * k) * ulp_half)) with ((600 * k + 100 * k * k) * ulp_half) in * by ring. unfold tiny, ulp_half in *. lra. }
    assert (HP : Rabs (B2R Q * B2R D) <= q * (200 + 200 * k)).
    { rewrite Rabs_mult, (Rabs_pos_eq (B2R Q)) by lra. apply Rle_trans with (2 * q * (91 + 91 * k)); [apply Rmult_le_compat; try lra; apply Rabs_pos|]. assert (0 <= q * k) by (apply Rmult_le_pos; lra). lra. }
    assert (Hqk : q * (200 + 200 * k) <= huge). { apply Rle_trans with (9007199254740992 * (200 + 200 * k)); [apply Rmult_le_compat_r; lra|]. apply Rle_trans with (bpow radix2 100); [change (bpow radix2 100) with 1267650600228229401496703205376; lra|apply bpow_le; lia]. }
    destruct (@fmul_err Q D _ F5 F4 HP Hqk) as [F6 E6]. split; [exact F6|]. apply abs_le in E6.
    assert (HE1 : Rabs (B2R Q * B2R D - q * e) <= q * (2 * ulp_half) * (91 + 91 * k) + q * ((1000 + 1000 * k + 100 * k * k) * ulp_half)).
    { replace (B2R Q * B2R D - q * e) with ((B2R Q - q) * B2R D + q * (B2R D - e)) by ring. eapply Rle_trans; [apply Rabs_triang|]. rewrite !Rabs_mult. apply Rplus_le_compat.
      - apply Rmult_le_compat; try apply Rabs_pos; [apply Rabs_le; lra|exact HDb].
      - rewrite (Rabs_pos_eq q) by lra. apply Rmult_le_compat_l; lra. }
    apply abs_le in HE1. apply Rabs_le.
    replace (q * (2000 * (k + 1) ^ 2 * ulp_half)) with (q * (2 * ulp_half) * (91 + 91 * k) + q * ((1000 + 1000 * k + 100 * k * k) * ulp_half) + (q * (200 + 200 * k) * ulp_half + (618 * (q * ulp_half) + 2618 * (q * k * ulp_half) + 1900 * (q * (k * k) * ulp_half)))) by ring.
    assert (0 <= q * k * ulp_half) by (apply Rmult_le_pos; [apply Rmult_le_pos|unfold ulp_half]; lra). assert (0 <= q * (k * k) * ulp_half) by (apply Rmult_le_pos; [apply Rmult_le_pos; [lra|apply Rmult_le_pos; lra]|unfold ulp_half; lra]). lra.
  Qed.
End Loss.
