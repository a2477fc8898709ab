(** Properties of the E-step of training in binary64 (src/lattice.rs, src/prune.rs): C68. *)
From Coq Require Import ZArith Reals Psatz Permutation.
From Flocq Require Import Core Relative BinarySingleNaN.
From Verif Require Import Base BaseProofs F64 F64Proofs FloatErr Model SpecModel EncodeProofs Par ParProofs Lattice SpecLattice LatticeProofs PopulateProofs RealArith SpecMarginal MarginalProofs
  PropLattice PropMarginal Prune PruneProofs SpecPrune EStepProofs PropEStep SpecNumeric NumericProofs SpecExp LseProofs FloatMarginal FloatSum FloatEStep.
Set Implicit Arguments.
Local Open Scope nat_scope.

Lemma piece_rounding_is len width score : piece_rounding len width score = piece_error score width len.
Proof.
  unfold piece_rounding, piece_error, unit_error, cap, ulp_half. rewrite plus_INR, mult_INR. replace (INR 3) with 3%R by (simpl; lra). unfold Rdiv. ring.
Qed.
Lemma count_close score width size n x y : few n -> (0 <= y)%R -> count_ok score width size n x y ->
  close_to (piece_rounding size width score + INR n / 4503599627370496) (INR n * bpow radix2 (-1072)) y x.
Proof.
  intros Hn Hy (r & (Fx & Hr & Hx) & _ & Hb). split; [exact Fx|]. rewrite piece_rounding_is. set (pe := piece_error score width size) in *.
  assert (Eu : (INR n * (2 * ulp_half) = INR n / 4503599627370496)%R) by (unfold ulp_half; lra). unfold few in Hn. rewrite Eu in *. set (k := (INR n / 4503599627370496)%R) in *.
  assert (Hk : (0 <= k)%R) by (unfold k; assert (0 <= INR n)%R by apply pos_INR; lra).
  assert (E2 : (INR n * bpow radix2 (-1072) = 4 * (INR n * denormal))%R). { unfold denormal. replace (bpow radix2 (-1072)) with (bpow radix2 2 * bpow radix2 (-1074))%R by (rewrite <- bpow_plus; reflexivity). replace (bpow radix2 2) with 4%R by (simpl; lra). ring. }
  assert (Hd : (0 <= INR n * denormal)%R) by (apply Rmult_le_pos; [apply pos_INR|apply Rlt_le, denormal_pos]). rewrite E2. set (d := (INR n * denormal)%R) in *.
  rewrite Ropp_plus_distr, !exp_plus. assert (H3 : (exp k <= 3)%R). { apply Rle_trans with (exp 1); [now apply exp_le|apply exp_le_3]. }
  assert (H4 : (0 < exp (- k) <= 1)%R). { split; [apply exp_pos|]. rewrite <- exp_0. apply exp_le. lra. } assert (H5 : (0 < exp k)%R) by apply exp_pos.
  split.
  - apply Rle_trans with (exp (- k) * r)%R; [|lra]. apply Rle_trans with (exp (- k) * (exp (- pe) * y - d))%R; [|apply Rmult_le_compat_l; lra].
    assert (exp (- k) * d <= 1 * d)%R by (apply Rmult_le_compat_r; lra). lra.
  - apply Rle_trans with (exp k * r)%R; [lra|]. apply Rle_trans with (exp k * (exp pe * y + d))%R; [apply Rmult_le_compat_l; lra|].
    assert (exp k * d <= 3 * d)%R by (apply Rmult_le_compat_r; lra). lra.
Qed.
Lemma few_is n : (INR n <= 4503599627370496)%R -> few n.
Proof. unfold few, ulp_half. lra. Qed.
Lemma average_nonneg vocab id L : (0 <= average_uses vocab id L)%R.
Proof.
  unfold average_uses. apply MarginalProofs.sum_nonneg. intros ids Hin. apply Rmult_le_pos; [apply pos_INR|]. apply Rlt_le, Rdiv_lt_0_compat; [apply exp_pos|].
  apply sum_pos; [intros; apply exp_pos|intros ->; destruct Hin].
Qed.
Lemma uses_nonneg vocab Ls i : (0 <= uses vocab Ls i)%R.
Proof. unfold uses. apply MarginalProofs.sum_nonneg. intros. apply average_nonneg. Qed.

(** ** C68 *)
(** One piece: the forward and backward passes end without error.  The normaliser is the logarithm of the total weight of all
    cuts of the piece and the count of a token is the number of its uses, on average over all cuts, up to the given rounding errors. *)
Theorem C68_piece : forall expf lnf vocab score width s l0 rnd dropout k L,
  accurate_exp expf -> accurate_ln lnf -> fits vocab -> (0 <= score)%R ->
  (forall t, In t vocab -> is_finite (st_score t) = true /\ (Rabs (B2R (st_score t)) <= score)%R /\ length (st_value t) <= width) ->
  let err := piece_rounding (length s) width score in
  (err <= 1)%R -> (INR (length s) <= 4503599627370496)%R ->
  fltb f0 dropout = false -> covers vocab s -> all_cuts vocab s L ->
  Lat (f64_arith expf lnf) s [] l0 ->
  exists l counts z, populate_nodes (f64_arith expf lnf) (fun x => x) (model_from vocab) rnd dropout l0 k = Ok (l, k) /\
    populate_marginal (f64_arith expf lnf) l (repeat f0 (length vocab)) = Ok (counts, z) /\ length counts = length vocab /\
    is_finite z = true /\ (Rabs (B2R z - ln (sum (cut_weight vocab) L)) <= err)%R /\
    forall i, i < length vocab ->
      close_to (err + INR (length s) / 4503599627370496) (INR (length s) * bpow radix2 (-1072)) (average_uses vocab (N.of_nat i) L) (nth i counts f0).
Proof.
  intros expf lnf vocab score width s l0 rnd dropout k L Hexp Hln Hf HS Hv err Herr Hlen Hd Hc HL Hl0. unfold err in *. rewrite piece_rounding_is in Herr.
  destruct (@fpiece_spec expf lnf Hexp Hln vocab Hf score width (length s) HS (fun t Ht => conj (proj1 (Hv t Ht)) (proj1 (proj2 (Hv t Ht)))) (fun t Ht => proj2 (proj2 (Hv t Ht))) Herr s l0 (repeat f0 (length vocab)) rnd dropout k L Hl0 Hd Hc (le_n _) (repeat_length _ _) HL)
    as (l & counts & z & HP & HM & Hl & Fz & Ez & Hb).
  exists l, counts, z. split; [exact HP|]. split; [exact HM|]. split; [exact Hl|]. split; [exact Fz|]. split; [now rewrite piece_rounding_is|].
  intros i Hi. apply few_is in Hlen. apply count_close; [exact Hlen|apply average_nonneg|]. specialize (Hb i Hi 0 0%R Hlen). rewrite nth_repeat in Hb. specialize (Hb (count_zero _ _ _)). now rewrite Rplus_0_l in Hb.
Qed.
Print Assumptions C68_piece.

(** The whole E-step, whatever the number of threads and the order in which the chunks end: the frequency of a token is the number of times it is
    expected in the pieces of the samples.  The only panic is the one of a piece the total weight of whose cuts is 1 up to the rounding error. *)
Theorem C68_e_step : forall expf lnf vocab score width threads c samples r,
  accurate_exp expf -> accurate_ln lnf -> fits vocab -> (0 <= score)%R ->
  (forall t, In t vocab -> is_finite (st_score t) = true /\ (Rabs (B2R (st_score t)) <= score)%R /\ length (st_value t) <= width) ->
  let err := piece_rounding (N.to_nat 81920) width score in
  let work := INR (length (concat samples) + length samples) in
  (err <= 1)%R -> (work <= 4503599627370496)%R ->
  fltb f0 (pc_dropout c) = false -> Forall (covers vocab) samples ->
  e_step_result expf lnf threads c (model_from vocab) samples r ->
  exists pss, Forall2 (pieces (N.to_nat 81920)) samples pss /\
  (r = Panic /\ (exists p L, In p (concat pss) /\ all_cuts vocab p L /\ (Rabs (ln (sum (cut_weight vocab) L)) <= err + bpow radix2 (-1022))%R) \/
   exists freqs, r = Ok freqs /\ length freqs = length vocab /\
    forall Lss, Forall2 (Forall2 (all_cuts vocab)) pss Lss ->
    forall i, i < length vocab ->
      close_to (err + work / 4503599627370496) (work * bpow radix2 (-1072)) (sum (sum (average_uses vocab (N.of_nat i))) Lss) (nth i freqs f0)).
Proof.
  intros expf lnf vocab score width threads c samples r Hexp Hln Hf HS Hv err work Herr Hw Hd Hc H. exists (map snippets samples). split.
  { clear. induction samples as [|s ss IH]; constructor; [apply snippets_pieces|exact IH]. }
  unfold err, work in *. clear err work. assert (Herr' := Herr). rewrite piece_rounding_is in Herr'. apply few_is in Hw.
  destruct (@festep_spec expf lnf Hexp Hln vocab Hf score width HS (fun t Ht => conj (proj1 (Hv t Ht)) (proj1 (proj2 (Hv t Ht)))) (fun t Ht => proj2 (proj2 (Hv t Ht))) Herr' c threads Hd samples r Hc Hw H)
    as [[-> (s & q & Hs & Hq & L & HL & HB)]|(freqs & -> & HB)].
  - left. split; [reflexivity|]. exists q, L. split; [apply in_concat; exists (snippets s); split; [now apply in_map|exact Hq]|]. split; [exact HL|]. now rewrite piece_rounding_is.
  - right. exists freqs. split; [reflexivity|].
    assert (HF' : forall Lss, Forall2 (Forall2 (all_cuts vocab)) (map snippets samples) Lss -> Forall2 (fun s Ls => Forall2 (all_cuts vocab) (snippets s) Ls) samples Lss).
    { clear. induction samples as [|s ss IH]; intros Lss HF; inversion HF; subst; constructor; auto. }
    split; [destruct (@cuts_exist_all vocab Hf samples Hc) as [Lss HF]; exact (proj1 (HB Lss HF))|].
    intros Lss HF i Hi. specialize (HB Lss (HF' _ HF)). apply (count_close (n := length (concat samples) + length samples)); [exact Hw| |].
    + rewrite <- sum_concat. apply uses_nonneg.
    + rewrite <- sum_concat. exact (proj2 HB i Hi).
Qed.
Print Assumptions C68_e_step.
(** It has a result. *)
Theorem C68_total : forall expf lnf vocab score width threads c samples,
  accurate_exp expf -> accurate_ln lnf -> fits vocab -> (0 <= score)%R ->
  (forall t, In t vocab -> is_finite (st_score t) = true /\ (Rabs (B2R (st_score t)) <= score)%R /\ length (st_value t) <= width) ->
  (piece_rounding (N.to_nat 81920) width score <= 1)%R -> (INR (length (concat samples) + length samples) <= 4503599627370496)%R ->
  fltb f0 (pc_dropout c) = false -> Forall (covers vocab) samples ->
  exists r, e_step_result expf lnf threads c (model_from vocab) samples r.
Proof.
  intros expf lnf vocab score width threads c samples Hexp Hln Hf HS Hv Herr Hw Hd Hc. rewrite piece_rounding_is in Herr. apply few_is in Hw.
  exact (@festep_total expf lnf Hexp Hln vocab Hf score width HS (fun t Ht => conj (proj1 (Hv t Ht)) (proj1 (proj2 (Hv t Ht)))) (fun t Ht => proj2 (proj2 (Hv t Ht))) Herr c threads Hd samples Hc Hw).
Qed.
Print Assumptions C68_total.

(** ** Examples *)
(** The correctly rounded exponential is accurate. *)
Definition exp64 (x : f64) : f64 := of_real (exp (B2R x)).
Lemma exp64_accurate : accurate_exp exp64.
Proof.
  intros x Fx Hx. assert (H0 : (0 < exp (B2R x) <= 3)%R). { split; [apply exp_pos|]. apply Rle_trans with (exp 1); [now apply exp_le|apply exp_le_3]. }
  destruct (@of_real_spec (exp (B2R x))) as [F E]. { rewrite Rabs_pos_eq by lra. apply le_huge. lra. }
  split; [exact F|]. unfold exp64. rewrite E. split; [apply round_ge_generic; [apply (fexp_correct prec64 emax64); exact prec64_gt_0|apply valid_rnd_N|apply generic_format_0|lra]|].
  destruct (@error_N_FLT radix2 (-1074) 53 ltac:(lia) (fun z => negb (Z.even z)) (exp (B2R x))) as (e & t & He & Ht & _ & Er).
  replace (rnd64 (exp (B2R x))) with (exp (B2R x) * (1 + e) + t)%R by (symmetry; exact Er). replace (exp (B2R x) * (1 + e) + t - exp (B2R x))%R with (exp (B2R x) * e + t)%R by ring.
  eapply Rle_trans; [apply Rabs_triang|]. apply Rplus_le_compat.
  - rewrite Rabs_mult, (Rabs_pos_eq (exp (B2R x))) by lra. apply Rmult_le_compat_l; [lra|]. eapply Rle_trans; [exact He|]. simpl. lra.
  - eapply Rle_trans; [exact Ht|]. assert (H1 := bpow_gt_0 radix2 (-1074)). lra.
Qed.

(** The tokens "a" and "b" of score -1 and "ab" of score -2: the two cuts of "ab" are equally probable, so two samples "ab" contain one "ab". *)
Definition sc (z : Z) : f64 := f64_of_Z z.
Lemma sc_is z : (Z.abs z <= 2 ^ 53)%Z -> is_finite (sc z) = true /\ B2R (sc z) = IZR z.
Proof. apply of_Z_exact. Qed.
Definition r_vocab : list scored_token := ab_vocab (sc (-1)) (sc (-1)) (sc (-2)).
Lemma size_INR : INR (N.to_nat 81920) = 81920%R.
Proof. now rewrite INR_IZR_INZ, N_nat_Z. Qed.
Lemma r_rounding : (0 <= piece_rounding (N.to_nat 81920) 2 2 <= / 50000)%R.
Proof. unfold piece_rounding. rewrite size_INR. replace (INR 2) with 2%R by (simpl; lra). lra. Qed.
Lemma r_scores t : In t r_vocab -> is_finite (st_score t) = true /\ (Rabs (B2R (st_score t)) <= 2)%R /\ length (st_value t) <= 2.
Proof.
  destruct (sc_is (-1) ltac:(lia)) as [F1 E1], (sc_is (-2) ltac:(lia)) as [F2 E2]. intros [<-|[<-|[<-|[]]]]; cbn [st_score st_value length]; rewrite ?E1, ?E2; (split; [assumption|]; split; [|lia]); unfold Rabs; destruct (Rcase_abs _); lra.
Qed.
Lemma r_weights : cut_weight r_vocab [0; 1]%N = exp (-2) /\ cut_weight r_vocab [2]%N = exp (-2).
Proof.
  destruct (sc_is (-1) ltac:(lia)) as [F1 E1], (sc_is (-2) ltac:(lia)) as [F2 E2]. unfold cut_weight, real_score. rewrite !sum_cons, !sum_nil. change (N.to_nat 0) with 0. change (N.to_nat 1) with 1. change (N.to_nat 2) with 2. unfold r_vocab, ab_vocab. cbn [nth_error st_score]. rewrite E1, E2. split; f_equal; lra.
Qed.
Lemma r_total : (Rabs (ln (sum (cut_weight r_vocab) [[0; 1]; [2]]%N)) > 1)%R.
Proof.
  destruct r_weights as [W1 W2]. rewrite !sum_cons, !sum_nil, W1, W2. replace (exp (-2) + (exp (-2) + 0))%R with (2 * exp (-2))%R by ring. rewrite ln_mult, ln_exp by (try lra; apply exp_pos).
  assert (H2 : (ln 2 < 1)%R). { apply exp_lt_inv. rewrite exp_ln by lra. assert (H := @exp_ineq1 1 ltac:(lra)). lra. } rewrite Rabs_left by lra. lra.
Qed.
Lemma r_uses : average_uses r_vocab 2 [[0; 1]; [2]]%N = (/ 2)%R.
Proof. destruct r_weights as [W1 W2]. unfold average_uses. rewrite !sum_cons, !sum_nil, W1, W2. assert (H := exp_pos (-2)). simpl. field. lra. Qed.
Lemma close_to_one err d x : (0 <= err <= / 1000)%R -> (0 <= d <= / 1000)%R -> close_to err d 1 x -> is_finite x = true /\ (Rabs (B2R x - 1) <= / 250)%R.
Proof.
  intros He Hd [Fx Hx]. split; [exact Fx|]. assert (H1 := exp_ge_1 (- err)). assert (H2 : (exp err <= / (1 - err))%R). { rewrite <- (Ropp_involutive err), exp_Ropp at 1. apply Rinv_le; lra. }
  assert (H3 : (/ (1 - err) <= 1 + 2 * err)%R). { apply Rmult_le_reg_l with (1 - err)%R; [lra|]. rewrite Rinv_r by lra. nra. } apply Rabs_le. lra.
Qed.
Example C68_example : forall threads, let c := PruneCfg 2 fhalf 1 f0 in let samples := [[x61; x62]; [x61; x62]] in
  (exists freqs, e_step_result exp64 ln64 threads c (model_from r_vocab) samples (Ok freqs)) /\
  forall r, e_step_result exp64 ln64 threads c (model_from r_vocab) samples r ->
    exists freqs, r = Ok freqs /\ is_finite (nth 2 freqs f0) = true /\ (Rabs (B2R (nth 2 freqs f0) - 1) <= / 250)%R.
Proof.
  intros threads c samples. assert (Hf : fits r_vocab) by (split; [reflexivity|repeat constructor]).
  assert (Hc : Forall (covers r_vocab) samples).
  { assert (H : covers r_vocab [x61; x62]) by (constructor; [exists (ST [x61] (sc (-1)) true); simpl; auto|constructor; [exists (ST [x62] (sc (-1)) true); simpl; auto|constructor]]). repeat (constructor; [exact H|]). constructor. }
  assert (Hr := r_rounding). assert (Hw : (INR (length (concat samples) + length samples) = 6)%R) by (simpl; lra).
  assert (Hall : forall r, e_step_result exp64 ln64 threads c (model_from r_vocab) samples r -> exists freqs, r = Ok freqs /\ is_finite (nth 2 freqs f0) = true /\ (Rabs (B2R (nth 2 freqs f0) - 1) <= / 250)%R).
  { intros r H. destruct (@C68_e_step exp64 ln64 r_vocab 2 2 threads c samples r exp64_accurate ln64_accurate Hf ltac:(lra) r_scores ltac:(lra) ltac:(rewrite Hw; lra) eq_refl Hc H) as (pss & Hp & HD).
    assert (Hmax := max_pos). unfold max_sample_length in Hmax.
    assert (Hpp : pieces (N.to_nat 81920) [x61; x62] [[x61; x62]]).
    { split; [reflexivity|]. intros [|k] p Hk; [|destruct k; discriminate]. injection Hk as <-. split; [|cbn [length]; lia]. cbn [length]. split; [lia|].
      assert (H2 : (2 <= 81920)%N) by discriminate. revert H2. generalize 81920%N. intros n H2. lia. }
    assert (Epss : pss = [[[x61; x62]]; [[x61; x62]]]).
    { inversion Hp as [|? p1 ? pss1 H1 Hp1]; subst. inversion Hp1 as [|? p2 ? pss2 H2 Hp2]; subst. inversion Hp2; subst.
      rewrite (C53_pieces_unique H1 Hpp), (C53_pieces_unique H2 Hpp). reflexivity. }
    subst pss. assert (Hb : (0 < bpow radix2 (-1072) <= / 1000000)%R). { split; [apply bpow_gt_0|]. apply Rle_trans with (bpow radix2 (-30)); [apply bpow_le; lia|simpl; lra]. }
    destruct HD as [[_ (p & L & Hin & HL & HB)]|(freqs & -> & _ & HB)].
    - exfalso. assert (Ep : p = [x61; x62]) by (simpl in Hin; intuition congruence). subst p.
      assert (EL : sum (cut_weight r_vocab) L = sum (cut_weight r_vocab) [[0; 1]; [2]]%N).
      { apply sum_perm, NoDup_Permutation; [apply HL|apply (ab_cuts (sc (-1)) (sc (-1)) (sc (-2)))|]. intros ids. destruct HL as [_ HL]. rewrite HL. symmetry. apply (ab_cuts (sc (-1)) (sc (-1)) (sc (-2))). }
      rewrite EL in HB. assert (HT := r_total). assert (bpow radix2 (-1022) <= / 4)%R by (apply Rle_trans with (bpow radix2 (-2)); [apply bpow_le; lia|simpl; lra]). lra.
    - exists freqs. split; [reflexivity|]. assert (Hcuts : all_cuts r_vocab [x61; x62] [[0; 1]; [2]]%N) by apply ab_cuts.
      specialize (HB [[[[0; 1]; [2]]]; [[[0; 1]; [2]]]]%N (Forall2_cons _ _ (Forall2_cons _ _ Hcuts (Forall2_nil _)) (Forall2_cons _ _ (Forall2_cons _ _ Hcuts (Forall2_nil _)) (Forall2_nil _))) 2 ltac:(simpl; lia)).
      rewrite !sum_cons, !sum_nil in HB. change (N.of_nat 2) with 2%N in HB. rewrite r_uses, Hw in HB. replace (/ 2 + 0 + (/ 2 + 0 + 0))%R with 1%R in HB by lra.
      revert HB. apply close_to_one; lra. }
  split; [|exact Hall]. destruct (@C68_total exp64 ln64 r_vocab 2 2 threads c samples exp64_accurate ln64_accurate Hf ltac:(lra) r_scores ltac:(lra) ltac:(rewrite Hw; lra) eq_refl Hc) as [r H].
  destruct (Hall r H) as (freqs & -> & _). now exists freqs.
Qed.
(** A sample all of whose cuts together have weight 1 does panic: the only token is "a" and its score is 0. *)
Example C68_panics : forall expf lnf r, e_step_result expf lnf 1 (PruneCfg 2 fhalf 1 f0) (model_from [ST [x61] f0 true]) [[x61]] r -> r = Panic.
Proof.
  intros expf lnf r H. inversion H as [rnds locals order cs Hl Hloc HP|]; [exfalso|reflexivity]. subst r.
  assert (E : cs = [[[x61]]]) by reflexivity. rewrite E in *. destruct locals as [|local [|? ?]]; try discriminate. specialize (Hloc 0 [[x61]] local eq_refl eq_refl). vm_compute in Hloc. discriminate.
Qed.
