(** Proofs about EM training in binary64: the E-step of C68 followed by the M-step of C55. *)
From Coq Require Import ZArith Reals Psatz Permutation Sorted.
From Flocq Require Import Core Relative BinarySingleNaN.
From Verif Require Import Base BaseProofs F64 F64Proofs FloatErr Model ModelProofs SpecModel EncodeProofs Par ParProofs Lattice SpecLattice LatticeProofs RealArith SpecMarginal MarginalProofs
  Prune PruneProofs PropPrune SpecPrune EStepProofs PropEStep SpecNumeric SpecDigamma DigammaReal NumericProofs PropNumeric SpecExp LseProofs FloatMarginal FloatSum FloatEStep PropRound SpecEm.
Set Implicit Arguments.
Local Open Scope R_scope.

(** ** Real numbers *)
Lemma exp_small_up E : 0 <= E <= / 2 -> exp E <= 1 + 2 * E.
Proof.
  intros H. assert (H1 := exp_ge_1 (- E)). assert (H2 : exp E <= / (1 - E)). { rewrite <- (Ropp_involutive E), exp_Ropp at 1. apply Rinv_le; lra. }
  apply Rle_trans with (1 := H2). apply Rmult_le_reg_l with (1 - E); [lra|]. rewrite Rinv_r by lra. nra.
Qed.
Lemma close_relative E d delta F f : 0 <= F -> 0 <= d -> 0 <= E <= / 2 -> 2 * E + 2 * d <= delta -> close_to E d F f -> Rabs (B2R f - F) <= delta * Rmax F (/ 2).
Proof.
  intros HF Hd HE Hdelta [_ [H1 H2]]. assert (U := exp_small_up HE). assert (L := exp_ge_1 (- E)). assert (M1 := Rmax_l F (/ 2)). assert (M2 := Rmax_r F (/ 2)). set (M := Rmax F (/ 2)) in *. clearbody M.
  assert (HU : exp E * F <= (1 + 2 * E) * F) by (apply Rmult_le_compat_r; lra). assert (HL : (1 - E) * F <= exp (- E) * F) by (apply Rmult_le_compat_r; lra).
  assert (HEF : E * F <= E * M) by (apply Rmult_le_compat_l; lra). assert (HE0 : 0 <= E * F) by (apply Rmult_le_pos; lra). assert (HdM : (2 * E + 2 * d) * M <= delta * M) by (apply Rmult_le_compat_r; lra).
  assert (HdM2 : d * / 2 <= d * M) by (apply Rmult_le_compat_l; lra). apply Rabs_le. lra.
Qed.
Lemma Rmax_lip a b c : Rabs (Rmax a c - Rmax b c) <= Rabs (a - b).
Proof. unfold Rmax. destruct (Rle_dec a c), (Rle_dec b c); unfold Rabs; repeat destruct (Rcase_abs _); lra. Qed.
Lemma sum_lip (f g : nat -> R) delta ids : (forall i, In i ids -> Rabs (f i - g i) <= delta * g i) -> Rabs (sum f ids - sum g ids) <= delta * sum g ids.
Proof.
  induction ids as [|i ids IH]; intros H; [rewrite !sum_nil; rewrite Rminus_0_r, Rabs_R0; lra|]. rewrite !sum_cons.
  assert (H1 := H i (or_introl eq_refl)). assert (H2 := IH (fun j Hj => H j (or_intror Hj))).
  replace (f i + sum f ids - (g i + sum g ids)) with ((f i - g i) + (sum f ids - sum g ids)) by ring. eapply Rle_trans; [apply Rabs_triang|]. lra.
Qed.
Lemma psi_close delta x y v w : 0 <= delta <= / 2 -> / 2 <= x -> / 2 <= y -> Rabs (y - x) <= delta * x -> digamma_at x v -> digamma_at y w -> Rabs (w - v) <= 6 * delta.
Proof.
  intros Hd Hx Hy H Hv Hw. apply DigammaReal.Rabs_le_inv in H.
  assert (G : forall a b p q, / 2 <= a <= b -> b - a <= 2 * delta * a -> digamma_at a p -> digamma_at b q -> p <= q <= p + 6 * delta).
  { clear - Hd. intros a b p q Hab Hr Hp Hq. destruct (@digamma_relative a b p q ltac:(lra) Hp Hq) as [H1 H2]. split; [exact H1|]. apply Rle_trans with (1 := H2).
    assert (Ha : 0 < / a <= 2). { split; [apply Rinv_0_lt_compat; lra|]. rewrite <- (Rinv_inv 2). apply Rinv_le_contravar; lra. }
    assert (H3 : (b - a) * / a <= 2 * delta). { apply Rmult_le_reg_r with a; [lra|]. rewrite Rmult_assoc, Rinv_l by lra. lra. }
    assert (H4 : 0 <= (b - a) * / a) by (apply Rmult_le_pos; lra). rewrite Rmult_assoc. assert ((1 + / a) * ((b - a) * / a) <= 3 * (2 * delta)) by (apply Rmult_le_compat; lra). lra. }
  destruct (Rle_dec x y) as [Hxy|Hxy].
  - destruct (G x y v w ltac:(lra) ltac:(assert (0 <= delta * x) by (apply Rmult_le_pos; lra); lra) Hv Hw). apply Rabs_le. lra.
  - destruct (G y x w v ltac:(lra)) as [H1 H2]; [|exact Hw|exact Hv|apply Rabs_le; lra]. assert (Hdx : delta * x <= / 2 * x) by (apply Rmult_le_compat_r; lra).
    assert (delta * (/ 2 * x) <= delta * y) by (apply Rmult_le_compat_l; lra). lra.
Qed.
(** The values of psi on the interval that matters. *)
Lemma psi_half_low x v : / 2 <= x -> digamma_at x v -> -5 <= v.
Proof.
  intros Hx Hv. destruct (@digamma_exists (/ 2) ltac:(lra)) as [p Hp]. destruct (@digamma_relative (/ 2) x p v ltac:(lra) Hp Hv) as [H _]. apply Rle_trans with (2 := H). clear v x Hx Hv H.
  assert (U := fun y v Hy => @digamma_up y v Hy). 
  assert (H1 := U (/ 2) _ ltac:(lra) Hp). assert (H2 := U (/ 2 + 1) _ ltac:(lra) H1). assert (H3 := U (/ 2 + 1 + 1) _ ltac:(lra) H2). assert (H4 := U (/ 2 + 1 + 1 + 1) _ ltac:(lra) H3).
  assert (H5 := U (/ 2 + 1 + 1 + 1 + 1) _ ltac:(lra) H4). assert (H6 := U (/ 2 + 1 + 1 + 1 + 1 + 1) _ ltac:(lra) H5). assert (H7 := U (/ 2 + 1 + 1 + 1 + 1 + 1 + 1) _ ltac:(lra) H6).
  assert (HB := H7). apply digamma_bounds in HB; [|lra]. replace (/ 2 + 1 + 1 + 1 + 1 + 1 + 1 + 1 - 1 / 2) with 7 in HB by lra. assert (HS := @S4_small 7 ltac:(lra)). apply DigammaReal.Rabs_le_inv in HS.
  assert (Hl : 0 <= ln 7) by (rewrite <- ln_1; left; apply ln_increasing; lra).
  assert (HI : forall y c, 0 < y -> 0 < c -> 1 <= c * y -> / y <= c). { intros y c Hy Hc H. apply Rmult_le_reg_r with y; [exact Hy|]. rewrite Rinv_l by lra. exact H. }
  assert (/ / 2 = 2) by lra. assert (/ (/ 2 + 1) <= 1) by (apply HI; lra). assert (/ (/ 2 + 1 + 1) <= / 2) by (apply HI; lra). assert (/ (/ 2 + 1 + 1 + 1) <= / 3) by (apply HI; lra).
  assert (/ (/ 2 + 1 + 1 + 1 + 1) <= / 4) by (apply HI; lra). assert (/ (/ 2 + 1 + 1 + 1 + 1 + 1) <= / 5) by (apply HI; lra). assert (/ (/ 2 + 1 + 1 + 1 + 1 + 1 + 1) <= / 6) by (apply HI; lra). lra.
Qed.
Lemma psi_high x v : 0 < x <= 38685626227668133590597632 -> digamma_at x v -> v <= 87.
Proof.
  intros Hx Hv. destruct (@digamma_exists (x + 7) ltac:(lra)) as [p Hp]. destruct (@digamma_relative x (x + 7) v p ltac:(lra) Hv Hp) as [H _]. apply Rle_trans with (1 := H).
  assert (HB := Hp). apply digamma_bounds in HB; [|lra]. assert (HS := @S5_small (x + 7 - 1 / 2) ltac:(lra)). apply DigammaReal.Rabs_le_inv in HS. assert (HL := @ln_small (x + 7 - 1 / 2) ltac:(lra)).
  assert (/ (x + 7 - 1 / 2) <= 1) by (rewrite <- Rinv_1; apply Rinv_le_contravar; lra). lra.
Qed.

(** ** How many uses there can be *)
Lemma cut_length vocab ids s : Cut vocab ids s -> (length ids <= length s)%nat.
Proof. induction 1 as [|id t ids s _ Hne _ IH]; [simpl; lia|]. rewrite app_length. simpl. destruct (st_value t); [congruence|simpl; lia]. Qed.
Lemma average_le vocab s L id : all_cuts vocab s L -> average_uses vocab id L <= INR (length s).
Proof.
  intros [_ HL]. unfold average_uses. destruct L as [|ids L]; [rewrite sum_nil; apply pos_INR|]. set (LL := ids :: L) in *.
  assert (HT : 0 < sum (cut_weight vocab) LL) by (apply sum_pos; [intros; apply exp_pos|discriminate]).
  apply Rle_trans with (sum (fun x => INR (length s) * / sum (cut_weight vocab) LL * cut_weight vocab x) LL).
  - apply sum_le. intros x Hx. apply HL in Hx. apply cut_length in Hx. assert (Hc : (count_occ N.eq_dec x id <= length x)%nat) by apply count_occ_bound.
    assert (HI : INR (count_occ N.eq_dec x id) <= INR (length s)) by (apply le_INR; lia). unfold Rdiv. rewrite Rmult_assoc, (Rmult_comm (/ _)). apply Rmult_le_compat_r; [|exact HI].
    apply Rlt_le, Rmult_lt_0_compat; [apply exp_pos|now apply Rinv_0_lt_compat].
  - rewrite sum_scal, Rmult_assoc, Rinv_l by lra. lra.
Qed.
Lemma uses_le vocab id ps Ls : Forall2 (all_cuts vocab) ps Ls -> sum (average_uses vocab id) Ls <= INR (length (concat ps)).
Proof. induction 1 as [|p L ps Ls HL _ IH]; [rewrite sum_nil; simpl; lra|]. rewrite sum_cons. cbn [concat]. rewrite app_length, plus_INR. assert (H := average_le id HL). lra. Qed.
Lemma expected_le vocab samples pss Lss i : Forall2 (pieces (N.to_nat 81920)) samples pss -> Forall2 (Forall2 (all_cuts vocab)) pss Lss -> 0 <= expected_uses vocab Lss i <= INR (length (concat samples)).
Proof.
  intros HP HL. split; [apply MarginalProofs.sum_nonneg; intros Ls _; apply MarginalProofs.sum_nonneg; intros; apply average_nonneg|].
  unfold expected_uses. revert Lss HL. induction HP as [|s ps samples pss [Hs _] _ IH]; intros Lss HL; inversion HL as [|? Ls ? Lss' H1 H2]; subst; [rewrite sum_nil; simpl; lra|].
  rewrite sum_cons. cbn [concat]. rewrite app_length, plus_INR. assert (H := uses_le (N.of_nat i) H1). specialize (IH _ H2). lra.
Qed.
Lemma cuts_of_pieces vocab n samples pss : fits vocab -> Forall (covers vocab) samples -> Forall2 (pieces n) samples pss -> exists Lss, Forall2 (Forall2 (all_cuts vocab)) pss Lss.
Proof.
  intros Hf Hc HP. revert Hc. induction HP as [|s ps samples pss [Hs _] _ IH]; intros Hc; [exists []; constructor|]. inversion Hc as [|? ? H1 H2]; subst. destruct (IH H2) as [Lss HL].
  assert (HLs : exists Ls, Forall2 (all_cuts vocab) ps Ls).
  { clear - Hf H1. induction ps as [|p ps IH]; [exists []; constructor|]. unfold covers in H1. cbn [concat] in H1. apply Forall_app in H1 as [Hp H1]. destruct (IH H1) as [Ls HL]. destruct (cuts_exist Hf Hp) as [L H]. exists (L :: Ls). now constructor. }
  destruct HLs as [Ls HLs]. exists (Ls :: Lss). now constructor.
Qed.

(** ** One turn *)
Section Turn.
  Variables (expf lnf : f64 -> f64) (vocab : list scored_token) (score : R) (width threads fuel : nat) (c : prune_cfg) (samples : list bytes).
  Hypothesis Hexp : accurate_exp expf.
  Hypothesis Hln : accurate_ln lnf.
  Hypothesis Hf : fits vocab.
  Hypothesis HS : 0 <= score.
  Hypothesis Hv : forall t, In t vocab -> is_finite (st_score t) = true /\ Rabs (B2R (st_score t)) <= score /\ (length (st_value t) <= width)%nat.
  Let err := piece_rounding (N.to_nat 81920) width score.
  Let work := INR (length (concat samples) + length samples).
  Hypothesis Hwork : work <= 4503599627370496.
  Variable delta : R.
  Hypothesis Hdelta : 2 * (err + work / 4503599627370496) + work * bpow radix2 (-1071) <= delta <= / 2.
  Hypothesis Hd : fltb f0 (pc_dropout c) = false.
  Hypothesis Hc : Forall (covers vocab) samples.
  Hypothesis Hfuel : (7 <= fuel)%nat.

  Lemma size_fits : INR (length vocab) <= 4294967296.
  Proof. destruct Hf as [H _]. rewrite INR_IZR_INZ. apply IZR_le. change (2 ^ 32)%N with 4294967296%N in H. lia. Qed.
  Lemma err_bounds : 0 <= err <= / 4 /\ 0 <= work.
  Proof.
    assert (Hw : 0 <= work) by apply pos_INR. assert (Hb := bpow_gt_0 radix2 (-1071)). assert (H1 : 0 <= work * bpow radix2 (-1071)) by (apply Rmult_le_pos; lra).
    assert (H2 : 0 <= work / 4503599627370496) by (unfold Rdiv; apply Rmult_le_pos; lra).
    split; [|exact Hw]. split; [|lra]. unfold err, piece_rounding. assert (Hl := pos_INR (N.to_nat 81920)). assert (Hwi := pos_INR width). assert (0 <= INR (N.to_nat 81920) * INR width) by (apply Rmult_le_pos; assumption).
    assert (0 <= INR (N.to_nat 81920) * score) by (apply Rmult_le_pos; assumption). unfold Rdiv. apply Rmult_le_pos; [apply Rmult_le_pos; lra|lra].
  Qed.
  Lemma turn_ok r : e_step_result expf lnf threads c (model_from vocab) samples r ->
    r = Panic /\ (exists pss p L, Forall2 (pieces (N.to_nat 81920)) samples pss /\ In p (concat pss) /\ all_cuts vocab p L /\ Rabs (ln (sum (cut_weight vocab) L)) <= err + bpow radix2 (-1022)) \/
    exists freqs vocab', r = Ok freqs /\ m_step lnf fuel (model_from vocab) freqs = Ok vocab' /\ turn delta samples vocab vocab' /\
      forall t', In t' vocab' -> Rabs (B2R (st_score t')) <= 100.
  Proof.
    intros H. destruct err_bounds as [He Hw0]. destruct (@C68_e_step expf lnf vocab score width threads c samples r Hexp Hln Hf HS Hv ltac:(fold err; lra) Hwork Hd Hc H) as (pss & HP & [[-> (p & L & H1 & H2 & H3)]|(freqs & -> & Hlen & HB)]).
    { left. split; [reflexivity|]. exists pss, p, L. auto. }
    right. destruct (cuts_of_pieces Hf Hc HP) as [Lss HL]. specialize (HB Lss HL). change (forall i, (i < length vocab)%nat -> close_to (err + work / 4503599627370496) (work * bpow radix2 (-1072)) (expected_uses vocab Lss i) (nth i freqs f0)) in HB.
    assert (HE := fun i => @expected_le vocab samples pss Lss i HP HL). set (F := expected_uses vocab Lss) in *.
    assert (Hd0 : 0 <= work * bpow radix2 (-1072) <= / 4 * work * bpow radix2 (-1070) /\ work * bpow radix2 (-1071) = 2 * (work * bpow radix2 (-1072))).
    { replace (-1071)%Z with (1 + -1072)%Z by reflexivity. replace (-1070)%Z with (2 + -1072)%Z by reflexivity. rewrite !bpow_plus. replace (bpow radix2 1) with 2 by (simpl; reflexivity). replace (bpow radix2 2) with 4 by (simpl; reflexivity).
      assert (Hb := bpow_gt_0 radix2 (-1072)). assert (0 <= work * bpow radix2 (-1072)) by (apply Rmult_le_pos; lra). lra. }
    assert (Hq : 0 <= work / 4503599627370496) by (unfold Rdiv; apply Rmult_le_pos; lra). destruct Hd0 as [[Hd0 _] Hd1]. rewrite Hd1 in Hdelta.
    assert (HD : 0 <= delta <= / 2) by lra.
    assert (Hrel : forall i, (i < length vocab)%nat -> Rabs (B2R (nth i freqs f0) - F i) <= delta * Rmax (F i) (/ 2)).
    { intros i Hi. apply (@close_relative (err + work / 4503599627370496) (work * bpow radix2 (-1072))); [apply HE|lra|lra|lra|]. now apply HB. }
    assert (HW : INR (length (concat samples)) <= work) by (unfold work; rewrite plus_INR; assert (Hx := pos_INR (length samples)); lra).
    assert (Hbig : Forall (fun f : f64 => is_finite f = true /\ B2R f <= bpow radix2 900) freqs).
    { apply Forall_forall. intros f Hin. apply In_nth_error in Hin as [i Hi]. assert (Hil : (i < length vocab)%nat) by (rewrite <- Hlen; apply nth_error_Some; rewrite Hi; discriminate). specialize (Hrel i Hil). destruct (HB i Hil) as [Ff _].
      rewrite (nth_error_nth _ _ f0 Hi) in *. split; [exact Ff|]. apply DigammaReal.Rabs_le_inv in Hrel. specialize (HE i). assert (HM : Rmax (F i) (/ 2) <= 4503599627370496) by (apply Rmax_lub; lra). assert (HM0 := Rmax_r (F i) (/ 2)).
      assert (delta * Rmax (F i) (/ 2) <= 1 * 4503599627370496) by (apply Rmult_le_compat; lra). apply Rle_trans with (bpow radix2 60); [|apply bpow_le; lia]. replace (bpow radix2 60) with 1152921504606846976 by (simpl; reflexivity). lra. }
    assert (Hl' : length freqs = length (m_vocab (model_from vocab))) by (rewrite model_from_vocab; exact Hlen). assert (HN : INR (length freqs) <= 4294967296) by (rewrite Hlen; apply size_fits).
    destruct (@m_step_error lnf fuel (model_from vocab) freqs Hln Hfuel Hl' HN Hbig) as (v & ids & Hm & HSi & HI & HF). change (binary_float prec64 emax64) with f64 in HI. exists freqs, v. split; [reflexivity|]. split; [exact Hm|].
    destruct (@m_step_spec _ _ _ _ _ Hm) as (_ & ids' & total & HSi' & HI' & HF' & _). rewrite model_from_vocab in *.
    assert (Hnth : forall i f, nth_error freqs i = Some f -> nth i freqs f0 = f) by (intros i f; apply nth_error_nth).
    assert (Eids : ids' = ids).
    { apply sorted_ext; [exact HSi'|exact HSi|]. intros i. rewrite HI', HI. destruct fhalf_real as [Fh Eh]. split.
      - intros (f & t & H1 & H2 & H3). exists t. split; [exact H2|]. rewrite (Hnth _ _ H1). destruct H3 as [H3|H3]; [now left|right]. rewrite Forall_forall in Hbig. destruct (Hbig f (nth_error_In _ _ H1)) as [Ff _].
        rewrite fltb_finite in H3 by assumption. rewrite Eh in H3. destruct (Rlt_bool_spec (B2R f) (/ 2)); [discriminate|lra].
      - intros (t & H2 & H3). assert (Hi : (i < length freqs)%nat) by (rewrite Hlen; apply nth_error_Some; congruence). destruct (nth_error_lt _ Hi) as [f Hfi]. exists f, t. split; [exact Hfi|]. split; [exact H2|]. rewrite (Hnth _ _ Hfi) in H3. destruct H3 as [H3|H3]; [now left|right].
        rewrite Forall_forall in Hbig. destruct (Hbig f (nth_error_In _ _ Hfi)) as [Ff _]. rewrite fltb_finite by assumption. rewrite Eh. destruct (Rlt_bool_spec (B2R f) (/ 2)); [lra|reflexivity]. }
    subst ids'. assert (Hids : forall i, In i ids -> (i < length vocab)%nat) by (intros i Hi; apply HI in Hi as (t & Ht & _); apply nth_error_Some; congruence).
    set (used := fun i => Rmax (F i) (/ 2)). assert (Hu2 : forall i, / 2 <= used i) by (intros; apply Rmax_r). assert (Ha2 : forall i, / 2 <= at_least_half freqs i) by (intros; apply Rmax_r).
    assert (Hone : forall i, In i ids -> Rabs (at_least_half freqs i - used i) <= delta * used i).
    { intros i Hi. eapply Rle_trans; [apply Rmax_lip|]. apply Hrel, Hids, Hi. }
    assert (Hall := sum_lip _ _ _ Hone).
    assert (Hge : forall (g : nat -> R) l i, (forall j, / 2 <= g j) -> In i l -> g i <= sum g l).
    { clear. intros g l i Hg Hi. induction l as [|j l IH]; [contradiction|]. rewrite sum_cons. assert (H0 : 0 <= sum g l) by (apply MarginalProofs.sum_nonneg; intros x _; specialize (Hg x); lra). destruct Hi as [->|Hi]; [lra|]. specialize (IH Hi). specialize (Hg j). lra. }
    assert (Hscore : Forall2 (fun i t' => forall phi psi, digamma_at (used i) phi -> digamma_at (sum used ids) psi -> Rabs (B2R (st_score t') - (phi - psi)) <= 12 * delta + 2 / 10000000000 + INR (length ids) / 100000000000000) ids v).
    { destruct ids as [|i0 ids0] eqn:Ei; [specialize (HF 0); inversion HF' ; constructor|]. rewrite <- Ei in *. assert (Hsum : / 2 <= sum (at_least_half freqs) ids). { apply Rle_trans with (at_least_half freqs i0); [apply Ha2|]. apply Hge; [exact Ha2|rewrite Ei; now left]. }
      assert (Hsum2 : / 2 <= sum used ids). { apply Rle_trans with (used i0); [apply Hu2|]. apply Hge; [exact Hu2|rewrite Ei; now left]. }
      clear Ei. destruct (@digamma_exists (sum (at_least_half freqs) ids) ltac:(lra)) as [psi' Hpsi']. specialize (HF _ Hpsi').
      assert (G : forall l w, (forall i, In i l -> In i ids) -> Forall2 (fun i t' => forall phi, digamma_at (at_least_half freqs i) phi -> Rabs (B2R (st_score t') - (phi - psi')) <= 2 / 10000000000 + INR (length ids) / 100000000000000) l w ->
        Forall2 (fun i t' => forall phi psi, digamma_at (used i) phi -> digamma_at (sum used ids) psi -> Rabs (B2R (st_score t') - (phi - psi)) <= 12 * delta + 2 / 10000000000 + INR (length ids) / 100000000000000) l w).
      { intros l w Hin HFl. induction HFl as [|i t' l w Hi _ IH]; constructor; [|apply IH; intros; apply Hin; now right]. intros phi psi Hphi Hpsi. destruct (@digamma_exists (at_least_half freqs i) ltac:(specialize (Ha2 i); lra)) as [phi' Hphi'].
        specialize (Hi _ Hphi'). assert (P1 := psi_close HD (Hu2 i) (Ha2 i) (Hone i (Hin i (or_introl eq_refl))) Hphi Hphi'). assert (P2 := psi_close HD Hsum2 Hsum Hall Hpsi Hpsi').
        apply DigammaReal.Rabs_le_inv in Hi, P1, P2. apply Rabs_le. lra. }
      apply (G ids v); auto. }
    assert (HT : turn delta samples vocab v).
    { exists pss, Lss, ids. split; [exact HP|]. split; [exact HL|]. cbv zeta. fold F. fold used. split; [exact HSi|]. split.
      - intros i t Ht. assert (Hi : (i < length vocab)%nat) by (apply nth_error_Some; congruence). specialize (Hrel i Hi). apply DigammaReal.Rabs_le_inv in Hrel. rewrite HI. split.
        + intros [Hk|HFi]; exists t; (split; [exact Ht|]); [now left|right]. rewrite Rmax_left in Hrel by lra. assert (Hx : (1 - delta) * (/ 2 + delta) <= (1 - delta) * F i) by (apply Rmult_le_compat_l; lra). assert (Hy : delta * delta <= delta * / 2) by (apply Rmult_le_compat_l; lra). lra.
        + intros (t0 & Ht0 & [Hk|Hfi]); [left; congruence|]. right. destruct (Rle_dec (/ 2) (F i)) as [Hge2|Hlt]; [lra|]. rewrite Rmax_right in Hrel by lra. lra.
      - clear - HF' Hscore. revert Hscore. generalize (12 * delta + 2 / 10000000000 + INR (length ids) / 100000000000000). intros e. generalize (sum used ids). intros S Hscore. revert Hscore.
        induction HF' as [|i t' ids v (f & t & d & _ & Ht & _ & -> & Fs) _ IH]; intros Hscore; [constructor|]. inversion Hscore as [|? ? ? ? Hi Hr]; subst. constructor; [|exact (IH Hr)].
        exists t. split; [exact Ht|]. split; [reflexivity|]. split; [reflexivity|]. split; [exact Fs|exact Hi]. }
    split; [exact HT|]. intros t' Ht'. assert (Hin : exists i, In i ids /\ forall phi psi, digamma_at (used i) phi -> digamma_at (sum used ids) psi -> Rabs (B2R (st_score t') - (phi - psi)) <= 12 * delta + 2 / 10000000000 + INR (length ids) / 100000000000000).
    { clear - Hscore Ht'. revert Hscore. generalize (12 * delta + 2 / 10000000000 + INR (length ids) / 100000000000000). generalize (sum used ids). intros S e Hscore. induction Hscore as [|i x l w H _ IH]; [contradiction|]. destruct Ht' as [->|Ht']; [exists i; split; [now left|exact H]|]. destruct (IH Ht') as (j & Hj & HQ). exists j. split; [now right|exact HQ]. }
    destruct Hin as (i & Hi & HQ). assert (Hui := Hge used ids i Hu2 Hi). destruct (@digamma_exists (used i) ltac:(specialize (Hu2 i); lra)) as [phi Hphi]. destruct (@digamma_exists (sum used ids) ltac:(specialize (Hu2 i); lra)) as [psi Hpsi].
    specialize (HQ _ _ Hphi Hpsi). destruct (@digamma_relative (used i) (sum used ids) phi psi ltac:(specialize (Hu2 i); lra) Hphi Hpsi) as [Hle _]. assert (Hlow := psi_half_low (Hu2 i) Hphi).
    assert (Hlen2 : (length ids <= length vocab)%nat). { rewrite <- (seq_length (length vocab) 0). apply NoDup_incl_length; [apply StronglySorted_lt_NoDup; exact HSi|]. intros j Hj. apply in_seq. specialize (Hids j Hj). lia. }
    assert (HlenR : INR (length ids) <= 4294967296) by (eapply Rle_trans; [apply le_INR, Hlen2|apply size_fits]). assert (Hlen0 := pos_INR (length ids)).
    assert (Hsum : sum used ids <= INR (length ids) * 4503599627370496).
    { rewrite <- sum_const. apply sum_le. intros j _. apply Rmax_lub; [specialize (HE j); lra|lra]. }
    assert (Hprod : INR (length ids) * 4503599627370496 <= 4294967296 * 4503599627370496) by (apply Rmult_le_compat_r; lra).
    assert (Hhigh := @psi_high (sum used ids) psi ltac:(specialize (Hu2 i); lra) Hpsi). apply DigammaReal.Rabs_le_inv in HQ. apply Rabs_le. lra.
  Qed.
End Turn.
