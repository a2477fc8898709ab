(** f64_from_parts: how far the number it makes is from [sig * 10 ^ e]. *)
From Coq Require Import ZArith Reals Bool Lia Lra.
From Flocq Require Import Core BinarySingleNaN Relative.
From Verif Require Import Base F64 F64Proofs SpecNum JsonNum RoundProofs ShortestProofs.
Set Implicit Arguments.
Local Open Scope R_scope.

Definition u : R := / 9007199254740992.
Definition eta : R := bpow radix2 (-1075).
Lemma eta_pos : 0 < eta.
Proof. apply bpow_gt_0. Qed.
Lemma eta_2 : bpow radix2 (-1074) = 2 * eta.
Proof. unfold eta. change (-1074)%Z with (1 + -1075)%Z. rewrite bpow_plus. reflexivity. Qed.

Lemma nearest_err r : 0 <= r -> Rabs (nearest r - r) <= u * r + eta.
Proof.
  intros H. destruct (@error_N_FLT radix2 (-1074) 53 eq_refl (fun x => negb (Z.even x)) r) as (eps & et & H1 & H2 & _ & E).
  unfold nearest. rewrite E. replace (r * (1 + eps) + et - r) with (eps * r + et) by ring. eapply Rle_trans; [apply Rabs_triang|]. rewrite Rabs_mult, (Rabs_pos_eq r) by exact H.
  assert (/ 2 * bpow radix2 (- (53) + 1) = u) as Eu by (unfold u; simpl; lra). rewrite Eu in H1. rewrite eta_2 in H2.
  assert (Rabs eps * r <= u * r) by (apply Rmult_le_compat_r; assumption). lra.
Qed.
Lemma nearest_rel r : 1 <= r -> Rabs (nearest r - r) <= u * r.
Proof.
  intros H. assert (He := @relative_error_N_FLT radix2 (-1074) 53 eq_refl (fun x => negb (Z.even x)) r). rewrite (Rabs_pos_eq r) in He by lra.
  assert (/ 2 * bpow radix2 (- (53) + 1) = u) as Eu by (unfold u; simpl; lra). rewrite Eu in He. apply He.
  apply Rle_trans with 1; [|exact H]. change 1 with (bpow radix2 0). apply bpow_le. lia.
Qed.
Lemma nearest_int z : (0 <= z)%Z -> Rabs (nearest (IZR z) - IZR z) <= u * IZR z.
Proof.
  intros H. destruct (Z.eq_dec z 0) as [->|Hz]; [rewrite nearest_0, Rminus_0_r, Rabs_R0; lra|]. apply nearest_rel. apply IZR_le. lia.
Qed.

(** ** Operations on numbers that are not negative *)
Definition pos_num (f : f64) (r : R) : Prop := is_finite f = true /\ Bsign f = false /\ B2R f = r.
Lemma of_Z_pos z : (0 <= z)%Z -> nearest (IZR z) < bpow radix2 1024 -> pos_num (f64_of_Z z) (nearest (IZR z)).
Proof.
  intros Hz Hb. assert (H := binary_normalize_correct prec64 emax64 _ _ mode_NE z 0 false). cbv zeta in H.
  replace (F2R (Float radix2 z 0)) with (IZR z) in H by (unfold F2R; simpl; ring).
  change (round radix2 (SpecFloat.fexp prec64 emax64) (round_mode mode_NE) (IZR z)) with (nearest (IZR z)) in H.
  assert (0 <= IZR z) by (apply IZR_le; exact Hz). rewrite Rlt_bool_true in H by (rewrite Rabs_pos_eq by (now apply nearest_ge_0); exact Hb).
  destruct H as (H1 & H2 & H3). split; [exact H2|]. split; [|exact H1]. unfold f64_of_Z, f64_of_Z_exp. rewrite H3.
  destruct (Rcompare_spec (IZR z) 0); try reflexivity. lra.
Qed.
Lemma fdiv_pos a b x y : pos_num a x -> pos_num b y -> 0 <= x -> 0 < y -> nearest (x / y) < bpow radix2 1024 -> pos_num (fdiv a b) (nearest (x / y)).
Proof.
  intros (F1 & S1 & R1) (F2 & S2 & R2) Hx Hy Hb. assert (H := Bdiv_correct prec64 emax64 _ _ mode_NE a b). rewrite R1, R2 in H. specialize (H ltac:(lra)).
  change (round radix2 (SpecFloat.fexp prec64 emax64) (round_mode mode_NE) (x / y)) with (nearest (x / y)) in H.
  assert (0 <= x / y) by (apply Rmult_le_pos; [exact Hx|left; now apply Rinv_0_lt_compat]).
  rewrite Rlt_bool_true in H by (rewrite Rabs_pos_eq by (now apply nearest_ge_0); exact Hb). destruct H as (H1 & H2 & H3).
  split; [unfold fdiv; rewrite H2; exact F1|]. split; [|exact H1]. unfold fdiv. rewrite H3, S1, S2; [reflexivity|].
  destruct (Bdiv mode_NE a b); try reflexivity. rewrite F1 in H2. discriminate.
Qed.
Lemma fmul_pos a b x y : pos_num a x -> pos_num b y -> 0 <= x -> 0 <= y ->
  (nearest (x * y) < bpow radix2 1024 -> pos_num (fmul a b) (nearest (x * y))) /\
  (bpow radix2 1024 <= nearest (x * y) -> f_is_infinite (fmul a b) = true).
Proof.
  intros (F1 & S1 & R1) (F2 & S2 & R2) Hx Hy. assert (H := Bmult_correct prec64 emax64 _ _ mode_NE a b). rewrite R1, R2 in H.
  change (round radix2 (SpecFloat.fexp prec64 emax64) (round_mode mode_NE) (x * y)) with (nearest (x * y)) in H.
  assert (0 <= x * y) by (apply Rmult_le_pos; assumption). rewrite Rabs_pos_eq in H by (now apply nearest_ge_0). split; intros Hb.
  - rewrite Rlt_bool_true in H by exact Hb. destruct H as (H1 & H2 & H3). unfold fmul. split; [rewrite H2, F1, F2; reflexivity|]. split; [|exact H1].
    rewrite H3, S1, S2; [reflexivity|]. destruct (Bmult mode_NE a b); try reflexivity. rewrite F1, F2 in H2. discriminate.
  - rewrite Rlt_bool_false in H by exact Hb. unfold fmul. rewrite S1, S2 in H. destruct (Bmult mode_NE a b); try discriminate. reflexivity.
Qed.
Lemma pos_inf f r : pos_num f r -> f_is_infinite f = false.
Proof. intros (H & _). destruct f; try discriminate; reflexivity. Qed.
Lemma pos_zero f r : pos_num f r -> feqb f f0 = Req_bool r 0.
Proof. intros (H & _ & E). unfold feqb. rewrite Beqb_correct by (assumption || reflexivity). now rewrite E. Qed.

Lemma p10_top k : (0 <= k <= 308)%Z -> 1 <= IZR (10 ^ k) /\ IZR (10 ^ k) <= IZR (10 ^ 308).
Proof.
  intros H. split; apply IZR_le; [assert (P := @pow10_pos k ltac:(lia)); lia|]. apply Z.pow_le_mono_r; lia.
Qed.
Lemma max_308 : IZR (10 ^ 308) * 1.5 < bpow radix2 1024.
Proof.
  rewrite b2_Z by lia. apply Rmult_lt_reg_r with 2; [lra|]. replace (IZR (10 ^ 308) * 1.5 * 2) with (3 * IZR (10 ^ 308)) by lra.
  rewrite <- !mult_IZR. apply IZR_lt. vm_compute. reflexivity.
Qed.
Lemma pow10_num k : (0 <= k <= 308)%Z -> pos_num (pow10 k) (nearest (IZR (10 ^ k))) /\ Rabs (nearest (IZR (10 ^ k)) - IZR (10 ^ k)) <= u * IZR (10 ^ k).
Proof.
  intros H. destruct (p10_top H) as [H1 H2]. assert (E := nearest_rel H1). split; [|exact E]. apply of_Z_pos; [apply Z.lt_le_incl, pow10_pos; lia|].
  assert (M := max_308). apply Rabs_le_inv in E. unfold u in E. lra.
Qed.
Lemma sig_num sig : (0 <= sig <= u64_max)%Z -> pos_num (f64_of_Z sig) (nearest (IZR sig)) /\ Rabs (nearest (IZR sig) - IZR sig) <= u * IZR sig.
Proof.
  intros H. assert (E := @nearest_int sig ltac:(lia)). split; [|exact E]. apply of_Z_pos; [lia|]. destruct H as [H1 H2]. apply IZR_le in H1, H2. change (IZR u64_max) with 18446744073709551615 in H2.
  apply Rabs_le_inv in E. unfold u in E. apply Rlt_trans with (bpow radix2 65); [simpl; lra|]. apply bpow_lt. lia.
Qed.

(** ** Errors *)
Lemma mul_close a a' b b' al be : 0 <= a -> 0 <= b -> 0 <= al -> 0 <= be -> Rabs (a' - a) <= al * a -> Rabs (b' - b) <= be * b ->
  Rabs (a' * b' - a * b) <= (al + be + al * be) * (a * b).
Proof.
  intros Ha Hb Hal Hbe H1 H2. replace (a' * b' - a * b) with ((a' - a) * b + a * (b' - b) + (a' - a) * (b' - b)) by ring.
  assert (T1 : Rabs ((a' - a) * b) <= al * a * b) by (rewrite Rabs_mult, (Rabs_pos_eq b) by exact Hb; apply Rmult_le_compat_r; assumption).
  assert (T2 : Rabs (a * (b' - b)) <= be * b * a) by (rewrite Rabs_mult, (Rabs_pos_eq a), Rmult_comm by exact Ha; apply Rmult_le_compat_r; assumption).
  assert (T3 : Rabs ((a' - a) * (b' - b)) <= al * a * (be * b)) by (rewrite Rabs_mult; apply Rmult_le_compat; try apply Rabs_pos; assumption).
  eapply Rle_trans; [apply Rabs_triang|]. eapply Rle_trans; [apply Rplus_le_compat_r; apply Rabs_triang|]. lra.
Qed.
Lemma div_close a a' b b' al ep : 0 <= a -> 1 <= b -> 0 <= al -> 0 <= ep -> Rabs (a' - a) <= al * a + ep -> Rabs (b' - b) <= u * b ->
  Rabs (a' / b' - a / b) <= (al + u) * (1 + 2 * u) * (a / b) + ep * (1 + 2 * u) / b.
Proof.
  intros Ha Hb Hal Hep H1 H2. assert (Hb' : b * (1 - u) <= b') by (apply Rabs_le_inv in H2; lra).
  assert (U : 0 < u < / 1000) by (unfold u; lra). assert (P : 0 < b') by nra.
  assert (I : / b' <= (1 + 2 * u) * / b).
  { apply Rmult_le_reg_r with (b' * b); [nra|]. replace (/ b' * (b' * b)) with b by (field; lra). replace ((1 + 2 * u) * / b * (b' * b)) with ((1 + 2 * u) * b') by (field; lra).
    assert (0 <= b * (u * (1 - 2 * u))) by (apply Rmult_le_pos; [lra|apply Rmult_le_pos; lra]).
    assert ((1 + 2 * u) * (b * (1 - u)) <= (1 + 2 * u) * b') by (apply Rmult_le_compat_l; lra). lra. }
  replace (a' / b' - a / b) with ((a' - a) * / b' + a * / b * ((b - b') * / b')) by (field; lra).
  assert (Hib : 0 < / b) by (apply Rinv_0_lt_compat; lra). assert (Hib' : 0 < / b') by (apply Rinv_0_lt_compat; lra).
  assert (Q : 0 <= a * / b) by nra.
  assert (T1 : Rabs ((a' - a) * / b') <= (al * a + ep) * ((1 + 2 * u) * / b)).
  { rewrite Rabs_mult, (Rabs_pos_eq (/ b')) by lra. apply Rmult_le_compat; try lra; apply Rabs_pos. }
  assert (T2 : Rabs (a * / b * ((b - b') * / b')) <= a * / b * (u * (1 + 2 * u))).
  { rewrite Rabs_mult, (Rabs_pos_eq (a * / b)) by exact Q. apply Rmult_le_compat_l; [exact Q|]. rewrite Rabs_mult, (Rabs_pos_eq (/ b')) by lra.
    rewrite Rabs_minus_sym in H2. apply Rle_trans with (u * b * ((1 + 2 * u) * / b)); [apply Rmult_le_compat; try lra; apply Rabs_pos|]. right. field. lra. }
  eapply Rle_trans; [apply Rabs_triang|]. unfold Rdiv. lra.
Qed.
Lemma round_close x x' al ep : 0 <= x -> 0 <= x' -> 0 <= al -> 0 <= ep -> Rabs (x' - x) <= al * x + ep -> Rabs (nearest x' - x) <= (al + u + u * al) * x + (ep + u * ep + eta).
Proof.
  intros Hx Hx' Hal Hep H. assert (E := nearest_err Hx'). replace (nearest x' - x) with ((nearest x' - x') + (x' - x)) by ring.
  eapply Rle_trans; [apply Rabs_triang|]. assert (L := Rabs_le_inv _ _ H). assert (U : 0 < u) by (unfold u; lra).
  assert (u * x' <= u * (x + al * x + ep)) by (apply Rmult_le_compat_l; lra). lra.
Qed.

(** ** The three cases *)
Lemma nearest_sig_0 sig : (0 <= sig)%Z -> 0 <= nearest (IZR sig).
Proof. intros H. apply nearest_ge_0. now apply IZR_le. Qed.
Lemma nearest_p10 k : (0 <= k <= 308)%Z -> 1 / 2 <= nearest (IZR (10 ^ k)) /\ IZR (10 ^ k) / 2 <= nearest (IZR (10 ^ k)).
Proof. intros H. destruct (pow10_num H) as [_ E]. destruct (p10_top H) as [H1 _]. apply Rabs_le_inv in E. unfold u in E. lra. Qed.

Lemma parts_mul sig e : (0 <= sig <= u64_max)%Z -> (0 <= e <= 308)%Z ->
  let r := nearest (nearest (IZR sig) * nearest (IZR (10 ^ e))) in
  (r < bpow radix2 1024 -> exists f, from_parts sig e = Some f /\ pos_num f r) /\ (bpow radix2 1024 <= r -> from_parts sig e = None).
Proof.
  intros Hs He r. destruct (sig_num Hs) as [Ns _]. destruct (pow10_num He) as [Np _]. destruct (nearest_p10 He) as [Hp _]. assert (H0 := @nearest_sig_0 sig ltac:(lia)).
  destruct (fmul_pos Ns Np H0 ltac:(lra)) as [A B]. fold r in A, B. unfold from_parts. cbn [scale].
  replace (Z.abs e <=? 308)%Z with true by (symmetry; apply Z.leb_le; lia). replace (0 <=? e)%Z with true by (symmetry; apply Z.leb_le; lia). cbv zeta. split; intros H.
  - specialize (A H). rewrite (pos_inf A). eauto.
  - rewrite (B H). reflexivity.
Qed.
Lemma div_fits x y : 0 <= x -> x <= bpow radix2 1000 -> 1 / 2 <= y -> nearest (x / y) < bpow radix2 1024.
Proof.
  intros Hx Hb Hy. apply Rle_lt_trans with (bpow radix2 1001); [|apply bpow_lt; lia].
  rewrite <- (nearest_id (r := bpow radix2 1001)) by (apply generic_format_bpow; unfold FLT_exp; lia). apply nearest_le.
  change 1001%Z with (1 + 1000)%Z. rewrite bpow_plus. change (bpow radix2 1) with 2.
  apply Rmult_le_reg_r with y; [lra|]. replace (x / y * y) with x by (field; lra). nra.
Qed.
Lemma sig_fits sig : (0 <= sig <= u64_max)%Z -> nearest (IZR sig) <= bpow radix2 64.
Proof.
  intros H. rewrite <- (nearest_id (r := bpow radix2 64)) by (apply generic_format_bpow; unfold FLT_exp; lia). apply nearest_le.
  change (bpow radix2 64) with (IZR (2 ^ 64)). apply IZR_le. unfold u64_max in H. lia.
Qed.
Lemma parts_div sig e : (0 <= sig <= u64_max)%Z -> (-308 <= e < 0)%Z ->
  exists f, from_parts sig e = Some f /\ pos_num f (nearest (nearest (IZR sig) / nearest (IZR (10 ^ (- e))))).
Proof.
  intros Hs He. destruct (sig_num Hs) as [Ns _]. destruct (@pow10_num (- e) ltac:(lia)) as [Np _]. destruct (@nearest_p10 (- e) ltac:(lia)) as [Hp _]. assert (H0 := @nearest_sig_0 sig ltac:(lia)).
  unfold from_parts. cbn [scale]. replace (Z.abs e <=? 308)%Z with true by (symmetry; apply Z.leb_le; lia). replace (0 <=? e)%Z with false by (symmetry; apply Z.leb_gt; lia).
  eexists. split; [reflexivity|]. apply fdiv_pos; [exact Ns|exact Np|exact H0|lra|]. apply div_fits; [exact H0| |exact Hp].
  eapply Rle_trans; [now apply sig_fits|]. apply bpow_le. lia.
Qed.
(** f64_from_parts always answers within three rounds, and its answer is near [sig * 10 ^ e]. *)
Lemma nearest_small r : 0 <= r -> r < eta -> nearest r = 0.
Proof.
  intros H0 H. assert (F : F64 0) by apply generic_format_0. assert (E := @nearest_pt r 0 F). assert (N := nearest_ge_0 H0).
  destruct (Rle_lt_or_eq_dec _ _ N) as [N'|N']; [exfalso|now symmetry].
  assert (G := nearest_F r). assert (B : bpow radix2 (-1074) <= nearest r).
  { destruct (Rle_or_lt (bpow radix2 (-1074)) (nearest r)) as [|B]; [assumption|exfalso].
    apply (@generic_format_ge_bpow radix2 fexp64 (-1074)) in G; [lra| |exact N']. intros e. unfold FLT_exp. lia. }
  rewrite eta_2 in B. rewrite Rminus_0_l, Rabs_Ropp, (Rabs_pos_eq r), Rabs_pos_eq in E by lra. lra.
Qed.
Lemma from_parts_spec sig e : (0 <= sig <= u64_max)%Z ->
  match from_parts sig e with
  | Some f => exists r, pos_num f r /\ 0 <= r /\ Rabs (r - decimal sig e) <= 7 * u * decimal sig e + bpow radix2 (-1074)
  | None => bpow radix2 1024 <= (1 + 4 * u) * decimal sig e
  end.
Proof.
  intros Hs. destruct (sig_num Hs) as [Ns Es]. assert (H0 := @nearest_sig_0 sig ltac:(lia)). set (S := nearest (IZR sig)) in *.
  assert (Hsig : 0 <= IZR sig) by (apply IZR_le; lia). assert (U : u = / 9007199254740992) by reflexivity. assert (ET := eta_pos). assert (U2 : 0 <= u * u <= u / 1000) by (rewrite U; lra). assert (U0 : 0 < u) by (rewrite U; lra).
  assert (P := p10_pos e). assert (HD : 0 <= decimal sig e) by (unfold decimal; nra). rewrite eta_2.
  destruct (Z.le_gt_cases 0 e) as [He|He]; [destruct (Z.le_gt_cases e 308) as [He'|He']|].
  - destruct (@pow10_num e ltac:(lia)) as [Np Ep]. destruct (@parts_mul sig e Hs ltac:(lia)) as [A B]. fold S in A, B. set (Q := nearest (IZR (10 ^ e))) in *.
    assert (H1 : 1 <= IZR (10 ^ e)) by (apply p10_top; lia). assert (HQ : 0 <= Q) by (apply Rabs_le_inv in Ep; rewrite U in Ep; lra).
    assert (C := @mul_close (IZR sig) S (IZR (10 ^ e)) Q u u Hsig ltac:(lra) ltac:(lra) ltac:(lra) Es Ep).
    replace (IZR sig * IZR (10 ^ e)) with (decimal sig e) in C by (unfold decimal; rewrite p10_Z by lia; ring).
    assert (HSQ : 0 <= S * Q) by (apply Rmult_le_pos; assumption). assert (C2 := @round_close (decimal sig e) (S * Q) (u + u + u * u) 0 HD HSQ ltac:(lra) ltac:(lra) ltac:(lra)).
    destruct (Rlt_or_le (nearest (S * Q)) (bpow radix2 1024)) as [Hl|Hl].
    + destruct (A Hl) as (f & -> & Hf). exists (nearest (S * Q)). split; [exact Hf|]. split; [now apply nearest_ge_0|]. eapply Rle_trans; [exact C2|].
      assert ((u + u + u * u + u + u * (u + u + u * u)) * decimal sig e <= 7 * u * decimal sig e); [|lra]. apply Rmult_le_compat_r; [exact HD|]. rewrite U. lra.
    + rewrite (B Hl). assert (HSQ1 : 1 <= S * Q).
      { destruct (Rle_or_lt 1 (S * Q)) as [|G]; [assumption|exfalso]. assert (nearest (S * Q) <= 1); [|assert (bpow radix2 0 <= bpow radix2 1024) by (apply bpow_le; lia); simpl (bpow radix2 0) in *].
        - rewrite <- (nearest_id (r := 1)) by (change 1 with (bpow radix2 0); apply generic_format_bpow; unfold FLT_exp; lia). apply nearest_le. lra.
        - assert (bpow radix2 1 <= bpow radix2 1024) by (apply bpow_le; lia). change (bpow radix2 1) with 2 in *. lra. }
      assert (E := nearest_rel HSQ1). apply Rabs_le_inv in E, C. assert (SQ : S * Q <= (1 + 2 * u + u * u) * decimal sig e) by lra.
      assert (u * (S * Q) <= u * ((1 + 2 * u + u * u) * decimal sig e)) by (apply Rmult_le_compat_l; lra).
      assert ((1 + 2 * u + u * u + u * (1 + 2 * u + u * u)) * decimal sig e <= (1 + 4 * u) * decimal sig e); [|lra]. apply Rmult_le_compat_r; [exact HD|]. rewrite U. lra.
  - unfold from_parts. cbn [scale]. replace (Z.abs e <=? 308)%Z with false by (symmetry; apply Z.leb_gt; lia). rewrite (pos_zero Ns).
    replace (0 <=? e)%Z with true by (symmetry; apply Z.leb_le; lia). destruct (Req_bool_spec S 0) as [E0|E0].
    + exists S. split; [exact Ns|]. split; [exact H0|]. assert (Z0 : sig = 0%Z).
      { destruct (Z.eq_dec sig 0) as [|Hn]; [assumption|exfalso]. assert (1 <= IZR sig) by (apply IZR_le; lia). apply Rabs_le_inv in Es. rewrite U in Es. lra. }
      subst sig. unfold decimal. rewrite E0, !Rmult_0_l, Rmult_0_r, Rminus_0_r, Rabs_R0. lra.
    + assert (Hn : (1 <= sig)%Z). { destruct (Z.eq_dec sig 0) as [Hz|]; [exfalso; apply E0; unfold S; rewrite Hz; apply nearest_0|lia]. }
      apply Rle_trans with (IZR (10 ^ 309)); [rewrite b2_Z by lia; apply IZR_le; vm_compute; discriminate|].
      apply Rle_trans with (decimal 1 e); [unfold decimal; rewrite Rmult_1_l, <- p10_Z by lia; apply p10_le; lia|].
      apply Rle_trans with (decimal sig e); [apply decimal_le; exact Hn|]. assert (0 <= u * decimal sig e) by (apply Rmult_le_pos; lra). lra.
  - destruct (Z.le_gt_cases (-308) e) as [He'|He'].
    + destruct (@pow10_num (- e) ltac:(lia)) as [Np Ep]. destruct (@parts_div sig e Hs ltac:(lia)) as (f & -> & Hf). fold S in Hf. set (Q := nearest (IZR (10 ^ (- e)))) in *.
      assert (H1 : 1 <= IZR (10 ^ (- e))) by (apply p10_top; lia).
      assert (C := @div_close (IZR sig) S (IZR (10 ^ (- e))) Q u 0 Hsig H1 ltac:(lra) ltac:(lra) ltac:(lra) Ep).
      assert (ED : IZR sig / IZR (10 ^ (- e)) = decimal sig e) by (unfold decimal; rewrite <- p10_Z, p10_opp by lia; field; lra). rewrite ED in C.
      assert (HQ : 0 < Q) by (apply Rabs_le_inv in Ep; rewrite U in Ep; lra).
      assert (HSQ : 0 <= S / Q) by (apply Rmult_le_pos; [exact H0|left; now apply Rinv_0_lt_compat]).
      assert (C1 : Rabs (S / Q - decimal sig e) <= 3 * u * decimal sig e + 0).
      { eapply Rle_trans; [exact C|]. assert ((u + u) * (1 + 2 * u) * decimal sig e <= 3 * u * decimal sig e) by (apply Rmult_le_compat_r; [exact HD|rewrite U; lra]). unfold Rdiv. lra. }
      assert (C2 := @round_close (decimal sig e) (S / Q) (3 * u) 0 HD HSQ ltac:(lra) ltac:(lra) C1). exists (nearest (S / Q)). split; [exact Hf|]. split; [now apply nearest_ge_0|].
      eapply Rle_trans; [exact C2|]. assert ((3 * u + u + u * (3 * u)) * decimal sig e <= 7 * u * decimal sig e) by (apply Rmult_le_compat_r; [exact HD|rewrite U; lra]). lra.
    + unfold from_parts. cbn [scale]. replace (Z.abs e <=? 308)%Z with false by (symmetry; apply Z.leb_gt; lia). rewrite (pos_zero Ns).
      replace (0 <=? e)%Z with false by (symmetry; apply Z.leb_gt; lia). destruct (Req_bool_spec S 0) as [E0|E0].
      { exists S. split; [exact Ns|]. split; [exact H0|]. assert (Z0 : sig = 0%Z).
        { destruct (Z.eq_dec sig 0) as [|Hn]; [assumption|exfalso]. assert (1 <= IZR sig) by (apply IZR_le; lia). apply Rabs_le_inv in Es. rewrite U in Es. lra. }
        subst sig. unfold decimal. rewrite E0, !Rmult_0_l, Rmult_0_r, Rminus_0_r, Rabs_R0. lra. }
      destruct (@pow10_num 308 ltac:(lia)) as [N8 E8]. assert (H8 : 1 <= IZR (10 ^ 308)) by (apply p10_top; lia). set (Q8 := nearest (IZR (10 ^ 308))) in *.
      assert (HQ8 : IZR (10 ^ 308) / 2 <= Q8) by (apply Rabs_le_inv in E8; rewrite U in E8; lra).
      assert (Hdiv : forall f x, pos_num f x -> 0 <= x -> x <= bpow radix2 1000 -> pos_num (fdiv f (pow10 308)) (nearest (x / Q8))).
      { intros f x Hf Hx Hb. apply fdiv_pos; [exact Hf|exact N8|exact Hx|lra|]. apply div_fits; [exact Hx|exact Hb|lra]. }
      assert (N1 := Hdiv _ _ Ns H0 ltac:(eapply Rle_trans; [now apply sig_fits|apply bpow_le; lia])). set (f1 := fdiv (f64_of_Z sig) (pow10 308)) in *.
      assert (C := @div_close (IZR sig) S (IZR (10 ^ 308)) Q8 u 0 Hsig H8 ltac:(lra) ltac:(lra) ltac:(lra) E8).
      assert (HSQ : 0 <= S / Q8) by (apply Rmult_le_pos; [exact H0|left; apply Rinv_0_lt_compat; lra]). set (d := IZR sig / IZR (10 ^ 308)) in *.
      assert (Hd : 0 <= d) by (apply Rmult_le_pos; [exact Hsig|left; apply Rinv_0_lt_compat; lra]).
      assert (C1 : Rabs (S / Q8 - d) <= 3 * u * d + 0).
      { eapply Rle_trans; [exact C|]. assert ((u + u) * (1 + 2 * u) * d <= 3 * u * d) by (apply Rmult_le_compat_r; [exact Hd|rewrite U; lra]). unfold Rdiv at 1. lra. }
      assert (C2 := @round_close d (S / Q8) (3 * u) 0 Hd HSQ ltac:(lra) ltac:(lra) C1). set (x1 := nearest (S / Q8)) in *. assert (Hx1 : 0 <= x1) by (now apply nearest_ge_0).
      assert (C3 : Rabs (x1 - d) <= 4.5 * u * d + eta).
      { eapply Rle_trans; [exact C2|]. assert ((3 * u + u + u * (3 * u)) * d <= 4.5 * u * d) by (apply Rmult_le_compat_r; [exact Hd|rewrite U; lra]). lra. }
      assert (B1 : x1 <= bpow radix2 (-900)).
      { replace (bpow radix2 (-900)) with (nearest (bpow radix2 (-900))) by (apply nearest_id, generic_format_bpow; unfold FLT_exp; lia). apply nearest_le.
        apply Rmult_le_reg_r with Q8; [lra|]. replace (S / Q8 * Q8) with S by (field; lra). eapply Rle_trans; [now apply sig_fits|].
        apply Rle_trans with (bpow radix2 (-900) * (IZR (10 ^ 308) / 2)); [|apply Rmult_le_compat_l; [apply bpow_ge_0|exact HQ8]].
        assert (bpow radix2 1000 <= IZR (10 ^ 308) / 2).
        { rewrite b2_Z by lia. assert (IZR (2 ^ 1000) * 2 <= IZR (10 ^ 308)); [rewrite <- mult_IZR; apply IZR_le; vm_compute; discriminate|lra]. }
        apply Rle_trans with (bpow radix2 (-900) * bpow radix2 1000); [rewrite <- bpow_plus; apply bpow_le; lia|]. apply Rmult_le_compat_l; [apply bpow_ge_0|assumption]. }
      assert (Tiny : forall w, 0 <= w -> w <= bpow radix2 (-900) -> nearest (w / Q8) = 0).
      { intros w Hw Hb. apply nearest_small; [apply Rmult_le_pos; [exact Hw|left; apply Rinv_0_lt_compat; lra]|]. apply Rmult_lt_reg_r with Q8; [lra|]. replace (w / Q8 * Q8) with w by (field; lra).
        eapply Rle_lt_trans; [exact Hb|]. apply Rlt_le_trans with (eta * bpow radix2 1000); [unfold eta; rewrite <- bpow_plus; apply bpow_lt; lia|].
        apply Rmult_le_compat_l; [lra|]. apply Rle_trans with (IZR (10 ^ 308) / 2); [|exact HQ8]. rewrite b2_Z by lia.
        assert (IZR (2 ^ 1000) * 2 <= IZR (10 ^ 308)); [rewrite <- mult_IZR; apply IZR_le; vm_compute; discriminate|lra]. }
      destruct (Z.leb_spec (Z.abs (e + 308)) 308) as [Hk|Hk].
      * replace (0 <=? e + 308)%Z with false by (symmetry; apply Z.leb_gt; lia). set (k := (- (e + 308))%Z) in *.
        destruct (@pow10_num k ltac:(lia)) as [Nk Ek]. assert (Hk1 : 10 <= IZR (10 ^ k)).
        { change 10 with (IZR (10 ^ 1)). apply IZR_le. apply Z.pow_le_mono_r; lia. }
        set (Q := nearest (IZR (10 ^ k))) in *. assert (HQ : 1 / 2 <= Q) by (apply Rabs_le_inv in Ek; rewrite U in Ek; lra).
        exists (nearest (x1 / Q)). split; [|].
        -- apply fdiv_pos; [exact N1|exact Nk|exact Hx1|lra|]. apply div_fits; [exact Hx1| |exact HQ]. eapply Rle_trans; [exact B1|apply bpow_le; lia].
        -- assert (HxQ : 0 <= x1 / Q) by (apply Rmult_le_pos; [exact Hx1|left; apply Rinv_0_lt_compat; lra]). split; [now apply nearest_ge_0|].
           assert (D := @div_close d x1 (IZR (10 ^ k)) Q (4.5 * u) eta Hd ltac:(lra) ltac:(lra) ltac:(lra) C3 Ek).
           assert (ED : d / IZR (10 ^ k) = decimal sig e).
           { unfold d, decimal. replace e with (- (308 + k))%Z by lia. rewrite p10_opp, p10_plus, !p10_Z by lia. field. lra. }
           rewrite ED in D. assert (D1 : Rabs (x1 / Q - decimal sig e) <= 5.6 * u * decimal sig e + 0.2 * eta).
           { eapply Rle_trans; [exact D|]. assert ((4.5 * u + u) * (1 + 2 * u) * decimal sig e <= 5.6 * u * decimal sig e) by (apply Rmult_le_compat_r; [exact HD|rewrite U; lra]).
             assert (eta * (1 + 2 * u) / IZR (10 ^ k) <= 0.2 * eta); [|lra]. apply Rmult_le_reg_r with (IZR (10 ^ k)); [lra|]. replace (eta * (1 + 2 * u) / IZR (10 ^ k) * IZR (10 ^ k)) with (eta * (1 + 2 * u)) by (field; lra).
             assert (eta * (1 + 2 * u) <= eta * 2) by (apply Rmult_le_compat_l; rewrite ?U; lra). assert (eta * 10 <= eta * IZR (10 ^ k)) by (apply Rmult_le_compat_l; lra). lra. }
           assert (D2 := @round_close (decimal sig e) (x1 / Q) (5.6 * u) (0.2 * eta) HD HxQ ltac:(lra) ltac:(lra) D1).
           eapply Rle_trans; [exact D2|]. assert ((5.6 * u + u + u * (5.6 * u)) * decimal sig e <= 7 * u * decimal sig e) by (apply Rmult_le_compat_r; [exact HD|rewrite U; lra]).
           assert (u * (0.2 * eta) <= 0.1 * eta) by (rewrite U; lra). lra.
      * (* everything below is 0 *)
        assert (HV : decimal sig e < eta).
        { unfold decimal. apply Rle_lt_trans with (bpow radix2 64 * powerRZ 10 (-617)).
          - assert (IZR sig <= bpow radix2 64) by (change (bpow radix2 64) with (IZR (2 ^ 64)); apply IZR_le; unfold u64_max in Hs; lia).
            assert (powerRZ 10 e <= powerRZ 10 (-617)) by (apply p10_le; lia). apply Rmult_le_compat; lra.
          - change (-617)%Z with (- (617))%Z. rewrite p10_opp, p10_Z by lia. unfold eta. change (-1075)%Z with (- (1075))%Z. rewrite bpow_opp, !b2_Z by lia.
            assert (0 < IZR (10 ^ 617)) by (apply IZR_lt, pow10_pos; lia). assert (0 < IZR (2 ^ 1075)) by (apply IZR_lt, pow2_pos; lia).
            apply Rmult_lt_reg_r with (IZR (10 ^ 617) * IZR (2 ^ 1075)); [nra|]. replace (IZR (2 ^ 64) * / IZR (10 ^ 617) * (IZR (10 ^ 617) * IZR (2 ^ 1075))) with (IZR (2 ^ 64) * IZR (2 ^ 1075)) by (field; lra).
            replace (/ IZR (2 ^ 1075) * (IZR (10 ^ 617) * IZR (2 ^ 1075))) with (IZR (10 ^ 617)) by (field; lra). rewrite <- mult_IZR. apply IZR_lt. vm_compute. reflexivity. }
        assert (Done : forall x, x = 0 -> Rabs (x - decimal sig e) <= 7 * u * decimal sig e + 2 * eta).
        { intros x ->. rewrite Rminus_0_l, Rabs_Ropp, Rabs_pos_eq by exact HD. assert (0 <= 7 * u * decimal sig e) by (apply Rmult_le_pos; lra). lra. }
        rewrite (pos_zero N1). destruct (Req_bool_spec x1 0) as [E1|E1].
        -- exists x1. split; [exact N1|]. split; [exact Hx1|]. now apply Done.
        -- replace (0 <=? e + 308)%Z with false by (symmetry; apply Z.leb_gt; lia).
           assert (N2 := Hdiv _ _ N1 Hx1 ltac:(eapply Rle_trans; [exact B1|apply bpow_le; lia])). rewrite (Tiny _ Hx1 B1) in N2. set (f2 := fdiv f1 (pow10 308)) in *.
           destruct (Z.leb_spec (Z.abs (e + 308 + 308)) 308) as [Hk2|Hk2].
           ++ replace (0 <=? e + 308 + 308)%Z with false by (symmetry; apply Z.leb_gt; lia). destruct (@pow10_num (- (e + 308 + 308)) ltac:(lia)) as [Nk Ek].
              destruct (@nearest_p10 (- (e + 308 + 308)) ltac:(lia)) as [Hpk _].
              exists 0. split; [|split; [lra|now apply Done]].
              assert (N3 := @fdiv_pos _ _ _ _ N2 Nk ltac:(lra) ltac:(lra)). unfold Rdiv in N3. rewrite Rmult_0_l, nearest_0 in N3. apply N3. apply bpow_gt_0.
           ++ rewrite (pos_zero N2). rewrite Req_bool_true by reflexivity. exists 0. split; [exact N2|]. split; [lra|now apply Done].
Qed.

Lemma parts_high sig e : (0 <= sig <= u64_max)%Z -> (308 < e)%Z -> if (sig =? 0)%Z then exists f, from_parts sig e = Some f /\ pos_num f 0 else from_parts sig e = None.
Proof.
  intros Hs He. destruct (sig_num Hs) as [Ns Es]. set (S := nearest (IZR sig)) in *. unfold from_parts. cbn [scale]. replace (Z.abs e <=? 308)%Z with false by (symmetry; apply Z.leb_gt; lia). rewrite (pos_zero Ns).
  replace (0 <=? e)%Z with true by (symmetry; apply Z.leb_le; lia). destruct (Z.eqb_spec sig 0) as [Hz|Hz].
  - assert (E0 : S = 0) by (unfold S; rewrite Hz; apply nearest_0). rewrite E0 in *. rewrite Req_bool_true by reflexivity. eauto.
  - rewrite Req_bool_false; [reflexivity|]. assert (1 <= IZR sig) by (apply IZR_le; lia). apply Rabs_le_inv in Es. unfold u in Es. lra.
Qed.
Lemma parts_low sig e : (0 <= sig <= u64_max)%Z -> (e < -616)%Z -> exists f, from_parts sig e = Some f /\ pos_num f 0.
Proof.
  intros Hs He. destruct (sig_num Hs) as [Ns _]. assert (H0 := @nearest_sig_0 sig ltac:(lia)). set (S := nearest (IZR sig)) in *.
  unfold from_parts. cbn [scale]. replace (Z.abs e <=? 308)%Z with false by (symmetry; apply Z.leb_gt; lia). rewrite (pos_zero Ns).
  replace (0 <=? e)%Z with false by (symmetry; apply Z.leb_gt; lia). destruct (Req_bool_spec S 0) as [E0|E0]; [rewrite E0 in *; eauto|].
  destruct (@pow10_num 308 ltac:(lia)) as [N8 _]. destruct (@nearest_p10 308 ltac:(lia)) as [HQ1 HQ8]. set (Q8 := nearest (IZR (10 ^ 308))) in *.
  assert (H1000 : bpow radix2 1000 <= IZR (10 ^ 308) / 2).
  { rewrite b2_Z by lia. assert (IZR (2 ^ 1000) * 2 <= IZR (10 ^ 308)); [rewrite <- mult_IZR; apply IZR_le; vm_compute; discriminate|lra]. }
  assert (Hdiv : forall f x, pos_num f x -> 0 <= x -> x <= bpow radix2 1000 -> pos_num (fdiv f (pow10 308)) (nearest (x / Q8))).
  { intros f x Hf Hx Hb. apply fdiv_pos; [exact Hf|exact N8|exact Hx|lra|]. apply div_fits; [exact Hx|exact Hb|exact HQ1]. }
  assert (N1 := Hdiv _ _ Ns H0 ltac:(eapply Rle_trans; [now apply sig_fits|apply bpow_le; lia])). set (x1 := nearest (S / Q8)) in *.
  assert (Hx1 : 0 <= x1) by (apply nearest_ge_0; apply Rmult_le_pos; [exact H0|left; apply Rinv_0_lt_compat; lra]).
  assert (B1 : x1 <= bpow radix2 (-900)).
  { replace (bpow radix2 (-900)) with (nearest (bpow radix2 (-900))) by (apply nearest_id, generic_format_bpow; unfold FLT_exp; lia). apply nearest_le.
    apply Rmult_le_reg_r with Q8; [lra|]. replace (S / Q8 * Q8) with S by (field; lra). eapply Rle_trans; [now apply sig_fits|].
    apply Rle_trans with (bpow radix2 (-900) * bpow radix2 1000); [rewrite <- bpow_plus; apply bpow_le; lia|]. apply Rmult_le_compat_l; [apply bpow_ge_0|lra]. }
  replace (Z.abs (e + 308) <=? 308)%Z with false by (symmetry; apply Z.leb_gt; lia).
  rewrite (pos_zero N1). destruct (Req_bool_spec x1 0) as [E1|E1]; [rewrite E1 in *; eauto|].
  replace (0 <=? e + 308)%Z with false by (symmetry; apply Z.leb_gt; lia).
  assert (N2 := Hdiv _ _ N1 Hx1 ltac:(eapply Rle_trans; [exact B1|apply bpow_le; lia])).
  rewrite nearest_small in N2.
  - destruct (Z.leb_spec (Z.abs (e + 308 + 308)) 308) as [Hk2|Hk2].
    + replace (0 <=? e + 308 + 308)%Z with false by (symmetry; apply Z.leb_gt; lia). destruct (@pow10_num (- (e + 308 + 308)) ltac:(lia)) as [Nk _].
      destruct (@nearest_p10 (- (e + 308 + 308)) ltac:(lia)) as [Hpk _]. eexists. split; [reflexivity|].
      assert (N3 := @fdiv_pos _ _ _ _ N2 Nk ltac:(lra) ltac:(lra)). unfold Rdiv in N3. rewrite Rmult_0_l, nearest_0 in N3. apply N3. apply bpow_gt_0.
    + rewrite (pos_zero N2). rewrite Req_bool_true by reflexivity. eauto.
  - apply Rmult_le_pos; [exact Hx1|left; apply Rinv_0_lt_compat; lra].
  - apply Rmult_lt_reg_r with Q8; [lra|]. replace (x1 / Q8 * Q8) with x1 by (field; lra).
    eapply Rle_lt_trans; [exact B1|]. apply Rlt_le_trans with (eta * bpow radix2 1000); [unfold eta; rewrite <- bpow_plus; apply bpow_lt; lia|].
    apply Rmult_le_compat_l; [apply bpow_ge_0|lra].
Qed.
