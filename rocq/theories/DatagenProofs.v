(** The comparisons of datagen.py in binary64 are those of the exact fractions. *)
From Coq Require Import Reals Psatz Permutation.
From Flocq Require Import Core BinarySingleNaN.
From Coq.Strings Require Import String.
From Verif Require Import Base F64 F64Proofs FloatErr Scripts SpecUtf8 Datagen SpecDatagen.
Set Implicit Arguments.
Local Open Scope list_scope.
Local Ltac splits := repeat match goal with |- _ /\ _ => split end.
Local Open Scope R_scope.
Lemma rnd_mono x y : x <= y -> rnd64 x <= rnd64 y.
Proof. intros H. rewrite !rnd64_FLT. apply round_le; [apply FLT_exp_valid; reflexivity|apply valid_rnd_N|exact H]. Qed.
Lemma rnd_format m e : (Z.abs m < 2 ^ 53)%Z -> (-1074 <= e)%Z -> rnd64 (IZR m * bpow radix2 e) = IZR m * bpow radix2 e.
Proof.
  intros Hm He. rewrite rnd64_FLT. apply round_generic; [apply valid_rnd_N|]. apply generic_format_FLT. exists (Float radix2 m e); [reflexivity|exact Hm|exact He].
Qed.
Lemma Rlt_bool_true_iff x y : Rlt_bool x y = true <-> x < y.
Proof. destruct (Rlt_bool_spec x y) as [H|H]; split; auto; [discriminate|lra]. Qed.
Lemma of_nat_exactly n : (Z.of_nat n <= 2 ^ 53)%Z -> is_finite (f64_of_nat n) = true /\ B2R (f64_of_nat n) = INR n.
Proof. intros H. unfold f64_of_nat. rewrite INR_IZR_INZ. apply of_Z_exact. lia. Qed.
Lemma fdiv_rnd (a b : f64) x y : is_finite a = true -> B2R a = x -> B2R b = y -> y <> 0 -> Rabs (x / y) <= huge -> is_finite (fdiv a b) = true /\ B2R (fdiv a b) = rnd64 (x / y).
Proof.
  intros Fa Ea Eb Hy Hh. assert (H := Bdiv_correct prec64 emax64 _ _ mode_NE a b ltac:(rewrite Eb; exact Hy)). rewrite Ea, Eb in H. rewrite Rlt_bool_true in H by (now apply rnd_fits).
  destruct H as (E & F & _). unfold fdiv. rewrite F, Fa. split; [reflexivity|exact E].
Qed.
Lemma fmul_rnd (a b : f64) x y : is_finite a = true -> is_finite b = true -> B2R a = x -> B2R b = y -> Rabs (x * y) <= huge -> is_finite (fmul a b) = true /\ B2R (fmul a b) = rnd64 (x * y).
Proof.
  intros Fa Fb Ea Eb Hh. assert (H := Bmult_correct prec64 emax64 _ _ mode_NE a b). rewrite Ea, Eb in H. rewrite Rlt_bool_true in H by (now apply rnd_fits).
  destruct H as (E & F & _). unfold fmul. rewrite F, Fa, Fb. split; [reflexivity|exact E].
Qed.
Lemma ratio_rnd a b : (a <= b)%nat -> (0 < b)%nat -> (Z.of_nat b <= 2 ^ 53)%Z -> is_finite (ratio_of a b) = true /\ B2R (ratio_of a b) = rnd64 (INR a / INR b).
Proof.
  intros Hab Hb Hl. destruct (@of_nat_exactly a ltac:(lia)) as [Fa Ea]. destruct (@of_nat_exactly b Hl) as [Fb Eb]. apply lt_INR in Hb. simpl in Hb. apply le_INR in Hab. assert (H0 := pos_INR a).
  apply fdiv_rnd; auto; [lra|]. apply le_huge. rewrite Rabs_pos_eq; [|apply Rle_mult_inv_pos; lra]. apply Rle_trans with 1; [|lra]. apply Rmult_le_reg_r with (INR b); [lra|]. replace (INR a / INR b * INR b) with (INR a) by (field; lra). lra.
Qed.
(** [a / b > 0.5] and [a / b > 0.2]. *)
Lemma half_exceeded a b : (a <= b)%nat -> (0 < b)%nat -> (Z.of_nat b <= 2 ^ 52)%Z -> fltb fhalf (ratio_of a b) = true <-> (b < 2 * a)%nat.
Proof.
  intros Hab Hb Hl. destruct (@ratio_rnd a b Hab Hb ltac:(lia)) as [F E].
  assert (Eh : B2R fhalf = / 2) by (vm_compute; lra). rewrite fltb_finite by (reflexivity || exact F). rewrite Rlt_bool_true_iff, E, Eh.
  assert (Hb' : 0 < INR b) by (apply (lt_INR 0); lia). assert (HL : INR b <= 4503599627370496) by (rewrite INR_IZR_INZ; apply IZR_le; lia). split.
  - intros H. apply INR_lt. rewrite mult_INR. simpl (INR 2). apply Rnot_le_lt. intros Hn. apply Rlt_not_le in H. apply H.
    replace (/ 2) with (rnd64 (/ 2)) by (replace (/ 2) with (IZR 1 * bpow radix2 (-1)) by (simpl; lra); apply rnd_format; lia). apply rnd_mono.
    apply Rmult_le_reg_r with (INR b); [exact Hb'|]. replace (INR a / INR b * INR b) with (INR a) by (field; lra). lra.
  - intros H. assert (H1 : INR b + 1 <= 2 * INR a). { replace (INR b + 1) with (INR (S b)) by apply S_INR. replace 2 with (INR 2) by reflexivity. rewrite <- mult_INR. apply le_INR. lia. }
    apply Rlt_le_trans with (rnd64 (IZR 4503599627370497 * bpow radix2 (-53))); [rewrite rnd_format by (simpl; lia); simpl; lra|]. apply rnd_mono.
    apply Rmult_le_reg_r with (INR b); [exact Hb'|]. replace (INR a / INR b * INR b) with (INR a) by (field; lra). simpl. lra.
Qed.
Lemma fifth : is_finite (literal 1 5) = true /\ B2R (literal 1 5) = IZR 3602879701896397 * bpow radix2 (-54).
Proof. split; [vm_compute; reflexivity|]. assert (E : B2SF (literal 1 5) = SpecFloat.S754_finite false 7205759403792794 (-55)) by (vm_compute; reflexivity). rewrite <- SF2R_B2SF, E. unfold SF2R, F2R. simpl. lra. Qed.
Lemma fifth_exceeded a b : (a <= b)%nat -> (0 < b)%nat -> (Z.of_nat b <= 2 ^ 52)%Z -> fltb (literal 1 5) (ratio_of a b) = true <-> (b < 5 * a)%nat.
Proof.
  intros Hab Hb Hl. destruct (@ratio_rnd a b Hab Hb ltac:(lia)) as [F E]. destruct fifth as [F5 E5].
  rewrite fltb_finite by assumption. rewrite Rlt_bool_true_iff, E, E5.
  assert (Hb' : 0 < INR b) by (apply (lt_INR 0); lia). assert (HL : INR b <= 4503599627370496) by (rewrite INR_IZR_INZ; apply IZR_le; lia). split.
  - intros H. apply INR_lt. rewrite mult_INR. replace (INR 5) with 5 by (simpl; lra). apply Rnot_le_lt. intros Hn. apply Rlt_not_le in H. apply H.
    rewrite <- (@rnd_format 3602879701896397 (-54)) by (simpl; lia). apply rnd_mono.
    apply Rmult_le_reg_r with (INR b); [exact Hb'|]. replace (INR a / INR b * INR b) with (INR a) by (field; lra). simpl. lra.
  - intros H. assert (H1 : INR b + 1 <= 5 * INR a). { replace (INR b + 1) with (INR (S b)) by apply S_INR. replace 5 with (INR 5) by (simpl; lra). rewrite <- mult_INR. apply le_INR. lia. }
    apply Rlt_le_trans with (rnd64 (IZR 7205759403792795 * bpow radix2 (-55))); [rewrite rnd_format by (simpl; lia); simpl; lra|]. apply rnd_mono.
    apply Rmult_le_reg_r with (INR b); [exact Hb'|]. replace (INR a / INR b * INR b) with (INR a) by (field; lra). simpl. lra.
Qed.
(** [d > 0.3 * n]. *)
Lemma three_tenths : is_finite (literal 3 10) = true /\ B2R (literal 3 10) = IZR 5404319552844595 * bpow radix2 (-54).
Proof. split; [vm_compute; reflexivity|]. assert (E : B2SF (literal 3 10) = SpecFloat.S754_finite false 5404319552844595 (-54)) by (vm_compute; reflexivity). rewrite <- SF2R_B2SF, E. unfold SF2R, F2R. simpl. lra. Qed.
Lemma close_below d x : (0 < d)%Z -> (d < 2 ^ 53)%Z -> IZR d - IZR d * 2 / 3 * bpow radix2 (-54) <= x -> IZR d <= rnd64 x.
Proof.
  intros Hd Hl Hx. rewrite rnd64_FLT. assert (HV : Valid_exp (FLT_exp (-1074) 53)) by (apply FLT_exp_valid; reflexivity).
  assert (HM : Monotone_exp (FLT_exp (-1074) 53)) by apply FLT_exp_monotone.
  assert (HF : generic_format radix2 (FLT_exp (-1074) 53) (IZR d)).
  { apply generic_format_FLT. exists (Float radix2 d 0); [unfold F2R; simpl; ring|simpl; lia|simpl; lia]. }
  assert (Hd' : 1 <= IZR d) by (apply IZR_le; lia).
  apply round_N_ge_midp; [exact HV|exact HF|]. set (p := pred radix2 (FLT_exp (-1074) 53) (IZR d)).
  assert (Hp : 0 <= p) by (apply pred_ge_0; [exact HV|lra|exact HF]).
  assert (Es : IZR d = p + ulp radix2 (FLT_exp (-1074) 53) p) by (rewrite <- (succ_pred radix2 (FLT_exp (-1074) 53) (IZR d) HF) at 1; apply succ_eq_pos; exact Hp).
  assert (Hu := ulp_FLT_gt radix2 (-1074) 53 p). rewrite Rabs_pos_eq in Hu by exact Hp. change (bpow radix2 (- (53))) with (/ 9007199254740992) in Hu. change (bpow radix2 (-54)) with (/ 18014398509481984) in Hx. lra.
Qed.
Lemma three_tenths_exceeded d n : (Z.of_nat n <= 2 ^ 49)%Z -> (d <= n)%nat -> fltb (fmul (literal 3 10) (f64_of_nat n)) (f64_of_nat d) = true <-> (3 * n < 10 * d)%nat.
Proof.
  intros Hl Hdn. destruct (@of_nat_exactly n ltac:(lia)) as [Fn En]. destruct (@of_nat_exactly d ltac:(lia)) as [Fd Ed]. destruct three_tenths as [F3 E3].
  assert (HL : INR n <= 562949953421312) by (rewrite INR_IZR_INZ; apply IZR_le; lia). assert (H0 := pos_INR n). assert (Hd0 := pos_INR d).
  destruct (@fmul_rnd _ _ _ _ F3 Fn E3 En) as [F E]; [apply le_huge; rewrite Rabs_pos_eq by (simpl; nra); simpl; nra|].
  rewrite fltb_finite by assumption. rewrite Rlt_bool_true_iff, E, Ed. clear E F. split.
  - intros H. apply INR_lt. rewrite !mult_INR. replace (INR 3) with 3 by (simpl; lra). replace (INR 10) with 10 by (simpl; lra). apply Rnot_le_lt. intros Hn. apply Rlt_not_le in H. apply H. clear H.
    destruct d as [|d']; [simpl INR; replace 0 with (rnd64 0) by (rewrite rnd64_FLT; apply round_0, valid_rnd_N); apply rnd_mono; simpl; nra|]. set (d := S d') in *.
    assert (Ed' : INR d = IZR (Z.of_nat d)) by apply INR_IZR_INZ. rewrite Ed'. apply close_below; [unfold d; lia|lia|]. rewrite <- Ed'. change (bpow radix2 (-54)) with (/ 18014398509481984). clearbody d. lra.
  - intros H. set (q := (3 * n / 10 + 1)%nat). assert (Hq : (3 * n < 10 * q <= 3 * n + 10)%nat) by (unfold q; assert (Hdm := Nat.div_mod (3 * n) 10 ltac:(lia)); assert (Hm := Nat.mod_upper_bound (3 * n) 10 ltac:(lia)); lia).
    clearbody q. assert (Hq2 : (Z.abs (16 * Z.of_nat q - 1) < 2 ^ 53)%Z) by (change (2 ^ 53)%Z with (16 * 2 ^ 49)%Z; lia).
    apply Rlt_le_trans with (INR q); [|apply le_INR; lia].
    apply Rle_lt_trans with (rnd64 (IZR (16 * Z.of_nat q - 1) * bpow radix2 (-4))); [|rewrite rnd_format by (exact Hq2 || lia); rewrite minus_IZR, mult_IZR, <- INR_IZR_INZ; simpl; lra]. apply rnd_mono.
    rewrite minus_IZR, mult_IZR, <- INR_IZR_INZ. assert (H1 : 3 * INR n + 1 <= 10 * INR q). { replace 3 with (INR 3) by (simpl; lra). replace 10 with (INR 10) by (simpl; lra). rewrite <- !mult_INR. rewrite <- S_INR. apply le_INR. lia. }
    simpl. lra.
Qed.
