(** Properties of EM training in binary64 (src/prune.rs): C71. *)
From Coq Require Import ZArith Reals Psatz Permutation Sorted.
From Flocq Require Import Core Relative BinarySingleNaN.
From Verif Require Import Base BaseProofs F64 F64Proofs FloatErr Model ModelProofs SpecModel EncodeProofs Sort SortProofs Par ParProofs Lattice SpecLattice LatticeProofs RealArith SpecMarginal MarginalProofs
  PropMarginal Prune PruneProofs PropPrune SpecPrune EStepProofs PropEStep SpecNumeric SpecDigamma DigammaReal NumericProofs PropNumeric SpecExp LseProofs FloatMarginal FloatSum FloatEStep PropRound SpecEm EmProofs.
Set Implicit Arguments.
Local Open Scope R_scope.

(** The hypotheses of a turn say more than is needed for its E-step. *)
Lemma small_work err n delta : 0 <= err -> 2 * (err + INR n / 4503599627370496) + INR n * bpow radix2 (-1071) <= delta <= / 2 -> INR n <= 4503599627370496.
Proof. intros He H. assert (Hn := pos_INR n). assert (Hb := bpow_gt_0 radix2 (-1071)). assert (0 <= INR n * bpow radix2 (-1071)) by (apply Rmult_le_pos; lra). lra. Qed.
Lemma rounding_pos len width score : 0 <= score -> 0 <= piece_rounding len width score.
Proof.
  intros HS. unfold piece_rounding. assert (Hl := pos_INR len). assert (Hwi := pos_INR width). assert (0 <= INR len * INR width) by (apply Rmult_le_pos; assumption).
  assert (0 <= INR len * score) by (apply Rmult_le_pos; assumption). unfold Rdiv. apply Rmult_le_pos; [apply Rmult_le_pos; lra|lra].
Qed.

(** ** C71 *)
(** One turn of EM, in binary64, whatever the number of threads and the order in which the chunks end, is a turn of EM in exact arithmetic up to
    the given error.  The only panic is the one of a piece the total weight of whose cuts is 1 up to the rounding error. *)
Theorem C71_turn : forall expf lnf vocab score width threads fuel c samples delta r,
  accurate_exp expf -> accurate_ln lnf -> fits vocab -> 0 <= score ->
  (forall t, In t vocab -> is_finite (st_score t) = true /\ Rabs (B2R (st_score t)) <= score /\ (length (st_value t) <= width)%nat) ->
  let err := piece_rounding (N.to_nat 81920) width score in
  let work := INR (length (concat samples) + length samples) in
  2 * (err + work / 4503599627370496) + work * bpow radix2 (-1071) <= delta <= / 2 ->
  fltb f0 (pc_dropout c) = false -> Forall (covers vocab) samples -> (7 <= fuel)%nat ->
  em_result expf lnf threads fuel c samples 1 (model_from vocab) r ->
  (exists vocab', r = Ok (model_from vocab') /\ turn delta samples vocab vocab') \/
  r = Panic /\ exists pss p L, Forall2 (pieces (N.to_nat 81920)) samples pss /\ In p (concat pss) /\ all_cuts vocab p L /\ Rabs (ln (sum (cut_weight vocab) L)) <= err + bpow radix2 (-1022).
Proof.
  intros expf lnf vocab score width threads fuel c samples delta r Hexp Hln Hf HS Hv err work Hdelta Hd Hc Hfuel H.
  assert (HT := @turn_ok expf lnf vocab score width threads fuel c samples Hexp Hln Hf HS Hv (small_work _ (rounding_pos _ _ HS) Hdelta) delta Hdelta Hd Hc Hfuel).
  inversion H as [|n m freqs vocab' r' He Hm Hr| |n m freqs r' He Hm]; subst.
  - inversion Hr; subst. destruct (HT _ He) as [[? _]|(f' & v' & E & Hm' & Ht & _)]; [discriminate|]. injection E as <-. rewrite Hm in Hm'. injection Hm' as <-. left. exists vocab'. auto.
  - match goal with He : e_step_result _ _ _ _ _ _ Panic |- _ => destruct (HT _ He) as [[_ HP]|(f' & v' & E & _)]; [|discriminate] end. right. split; [reflexivity|exact HP].
  - destruct (HT _ He) as [[? _]|(f' & v' & E & Hm' & _)]; [discriminate|]. injection E as <-. rewrite Hm' in Hm. destruct Hm as [[_ Hm]|[_ Hm]]; discriminate.
Qed.
Print Assumptions C71_turn.

(** What a turn keeps. *)
Lemma turn_shrunk delta samples vocab v : 0 <= delta -> turn delta samples vocab v -> shrunk vocab v.
Proof.
  intros _ (pss & Lss & ids & _ & _ & HS & HI & HF). apply select_shrunk with (ids := ids).
  - now apply StronglySorted_lt_NoDup.
  - eapply Forall2_imp; [|exact HF]. cbv beta. intros i t' (t & Ht & E1 & E2 & _). exists t. split; [exact Ht|]. unfold vk. congruence.
  - intros i t Ht Hk. apply (HI _ _ Ht). now left.
Qed.
Lemma turn_finite delta samples vocab v t : turn delta samples vocab v -> In t v -> is_finite (st_score t) = true.
Proof.
  intros (pss & Lss & ids & _ & _ & _ & _ & HF) Hin. cbv zeta in HF.
  assert (G : forall l w (P : nat -> scored_token -> Prop), Forall2 (fun i t' => exists t, nth_error vocab i = Some t /\ st_value t' = st_value t /\ st_keep t' = st_keep t /\ is_finite (st_score t') = true /\ P i t') l w -> In t w -> is_finite (st_score t) = true).
  { clear. intros l w P H. induction H as [|i t' l w (t0 & _ & _ & _ & F & _) _ IH]; [contradiction|]. intros [->|Hin]; auto. }
  exact (G _ _ _ HF Hin).
Qed.
Lemma shrunk_kept_bytes vocab v s : shrunk vocab v -> kept_bytes vocab s -> kept_bytes v s.
Proof.
  intros (removed & HP & HF) H. unfold kept_bytes in *. eapply Forall_impl; [|exact H]. intros b (t & Ht & Ev & Ek).
  assert (Hin : In (vk t) (map vk v ++ removed)) by (apply (Permutation_in _ (Permutation_sym HP)); now apply in_map).
  apply in_app_or in Hin as [Hin|Hin].
  - apply in_map_iff in Hin as (t' & E & Hin). exists t'. split; [exact Hin|]. injection E as E1 E2. split; congruence.
  - rewrite Forall_forall in HF. apply HF in Hin. unfold vk in Hin. simpl in Hin. congruence.
Qed.
Lemma kept_covers vocab s : kept_bytes vocab s -> covers vocab s.
Proof. intros H. eapply Forall_impl; [|exact H]. intros b (t & Ht & Ev & _). eauto. Qed.

Section Turns.
  Variables (expf lnf : f64 -> f64) (score : R) (width threads fuel : nat) (c : prune_cfg) (samples : list bytes) (delta : R).
  Hypothesis Hexp : accurate_exp expf.
  Hypothesis Hln : accurate_ln lnf.
  Hypothesis HS : 100 <= score.
  Let err := piece_rounding (N.to_nat 81920) width score.
  Let work := INR (length (concat samples) + length samples).
  Hypothesis Hdelta : 2 * (err + work / 4503599627370496) + work * bpow radix2 (-1071) <= delta <= / 2.
  Hypothesis Hd : fltb f0 (pc_dropout c) = false.
  Hypothesis Hfuel : (7 <= fuel)%nat.
  Let good vocab := fits vocab /\ (forall t, In t vocab -> is_finite (st_score t) = true /\ Rabs (B2R (st_score t)) <= score /\ (length (st_value t) <= width)%nat) /\ Forall (kept_bytes vocab) samples.
  Lemma score_pos : 0 <= score. Proof. lra. Qed.
  Lemma delta_pos : 0 <= delta.
  Proof.
    assert (He := rounding_pos (N.to_nat 81920) width score_pos). fold err in He. assert (Hw : 0 <= work) by apply pos_INR. assert (Hb := bpow_gt_0 radix2 (-1071)). assert (0 <= work * bpow radix2 (-1071)) by (apply Rmult_le_pos; lra). lra.
  Qed.
  Lemma good_turn vocab r : good vocab -> e_step_result expf lnf threads c (model_from vocab) samples r ->
    r = Panic /\ (exists pss p L, Forall2 (pieces (N.to_nat 81920)) samples pss /\ In p (concat pss) /\ all_cuts vocab p L /\ Rabs (ln (sum (cut_weight vocab) L)) <= err + bpow radix2 (-1022)) \/
    exists freqs vocab', r = Ok freqs /\ m_step lnf fuel (model_from vocab) freqs = Ok vocab' /\ turn delta samples vocab vocab' /\ good vocab'.
  Proof.
    intros (Hf & Hv & Hk) H. assert (Hc : Forall (covers vocab) samples) by (eapply Forall_impl; [|exact Hk]; intros; now apply kept_covers).
    destruct (@turn_ok expf lnf vocab score width threads fuel c samples Hexp Hln Hf score_pos Hv (small_work _ (rounding_pos _ _ score_pos) Hdelta) delta Hdelta Hd Hc Hfuel _ H) as [HP|(freqs & v & -> & Hm & Ht & Hb)]; [now left|].
    right. exists freqs, v. split; [reflexivity|]. split; [exact Hm|]. split; [exact Ht|]. assert (Hsh := turn_shrunk delta_pos Ht). split; [eapply shrunk_fits; eauto|]. split.
    - intros t Hin. split; [eapply turn_finite; eauto|]. split; [specialize (Hb t Hin); lra|]. destruct (shrunk_In t Hsh Hin) as (t' & Hin' & <-). now apply Hv.
    - eapply Forall_impl; [|exact Hk]. intros s. now apply shrunk_kept_bytes.
  Qed.
  Lemma good_turns n : forall vocab r, good vocab -> em_result expf lnf threads fuel c samples n (model_from vocab) r ->
    exists vs v, chain (turn delta samples) vs vocab v /\
    (r = Ok (model_from v) /\ length vs = Datatypes.S n \/
     r = Panic /\ (length vs <= n)%nat /\ exists pss p L, Forall2 (pieces (N.to_nat 81920)) samples pss /\ In p (concat pss) /\ all_cuts v p L /\ Rabs (ln (sum (cut_weight v) L)) <= err + bpow radix2 (-1022)).
  Proof.
    induction n as [|n IH]; intros vocab r Hg H.
    - inversion H; subst. exists [vocab], vocab. split; [apply chain_one|]. left. split; reflexivity.
    - inversion H as [|n' m freqs vocab' r' He Hm Hr|n' m He|n' m freqs r' He Hm]; subst.
      + destruct (good_turn Hg He) as [[? _]|(f' & v' & E & Hm' & Ht & Hg')]; [discriminate|]. injection E as <-. rewrite Hm in Hm'. injection Hm' as <-.
        destruct (IH _ _ Hg' Hr) as (vs & v & HC & HD). exists (vocab :: vs), v. split; [eapply chain_step; eauto|]. destruct HD as [[-> Hl]|[-> (Hl & HP)]]; [left; split; [reflexivity|simpl; congruence]|right]. split; [reflexivity|]. split; [simpl; lia|exact HP].
      + destruct (good_turn Hg He) as [[_ HP]|(f' & v' & E & _)]; [|discriminate]. exists [vocab], vocab. split; [apply chain_one|]. right. split; [reflexivity|]. split; [simpl; lia|exact HP].
      + destruct (good_turn Hg He) as [[? _]|(f' & v' & E & Hm' & _)]; [discriminate|]. injection E as <-. rewrite Hm' in Hm. destruct Hm as [[_ Hm]|[_ Hm]]; discriminate.
  Qed.
  Lemma good_total n : forall vocab, good vocab -> exists r, em_result expf lnf threads fuel c samples n (model_from vocab) r.
  Proof.
    induction n as [|n IH]; intros vocab Hg; [eexists; constructor|]. assert (Hg' := Hg). destruct Hg' as (Hf & Hv & Hk). assert (Hc : Forall (covers vocab) samples) by (eapply Forall_impl; [|exact Hk]; intros; now apply kept_covers).
    assert (He0 := rounding_pos (N.to_nat 81920) width score_pos). assert (Hw := small_work _ He0 Hdelta). assert (Hdp := delta_pos). assert (Hw0 : 0 <= work) by apply pos_INR. assert (Hb := bpow_gt_0 radix2 (-1071)). assert (0 <= work * bpow radix2 (-1071)) by (apply Rmult_le_pos; lra).
    destruct (@C68_total expf lnf vocab score width threads c samples Hexp Hln Hf score_pos Hv ltac:(change (err <= 1); change (0 <= err) in He0; lra) Hw Hd Hc) as [r Hr].
    destruct (good_turn Hg Hr) as [[-> _]|(freqs & v & -> & Hm & _ & Hg')]; [exists Panic; now constructor|]. destruct (IH v Hg') as [r Hr']. exists r. econstructor; eauto.
  Qed.
End Turns.

(** Any number of turns.  The single bytes of the samples are tokens that are kept, so that every turn finds cuts; after a turn no score is larger
    than 100, so that the same error holds for all turns. *)
Theorem C71_turns : forall expf lnf vocab score width threads fuel c samples delta n r,
  accurate_exp expf -> accurate_ln lnf -> fits vocab -> 100 <= score ->
  (forall t, In t vocab -> is_finite (st_score t) = true /\ Rabs (B2R (st_score t)) <= score /\ (length (st_value t) <= width)%nat) ->
  let err := piece_rounding (N.to_nat 81920) width score in
  let work := INR (length (concat samples) + length samples) in
  2 * (err + work / 4503599627370496) + work * bpow radix2 (-1071) <= delta <= / 2 ->
  fltb f0 (pc_dropout c) = false -> Forall (kept_bytes vocab) samples -> (7 <= fuel)%nat ->
  em_result expf lnf threads fuel c samples n (model_from vocab) r ->
  exists vs v, chain (turn delta samples) vs vocab v /\
  (r = Ok (model_from v) /\ length vs = Datatypes.S n \/
   r = Panic /\ (length vs <= n)%nat /\ exists pss p L, Forall2 (pieces (N.to_nat 81920)) samples pss /\ In p (concat pss) /\ all_cuts v p L /\ Rabs (ln (sum (cut_weight v) L)) <= err + bpow radix2 (-1022)).
Proof.
  intros expf lnf vocab score width threads fuel c samples delta n r Hexp Hln Hf HS Hv err work Hdelta Hd Hk Hfuel H.
  exact (@good_turns expf lnf score width threads fuel c samples delta Hexp Hln HS Hdelta Hd Hfuel n vocab r (conj Hf (conj Hv Hk)) H).
Qed.
Print Assumptions C71_turns.
(** It has a result. *)
Theorem C71_total : forall expf lnf vocab score width threads fuel c samples delta n,
  accurate_exp expf -> accurate_ln lnf -> fits vocab -> 100 <= score ->
  (forall t, In t vocab -> is_finite (st_score t) = true /\ Rabs (B2R (st_score t)) <= score /\ (length (st_value t) <= width)%nat) ->
  let err := piece_rounding (N.to_nat 81920) width score in
  let work := INR (length (concat samples) + length samples) in
  2 * (err + work / 4503599627370496) + work * bpow radix2 (-1071) <= delta <= / 2 ->
  fltb f0 (pc_dropout c) = false -> Forall (kept_bytes vocab) samples -> (7 <= fuel)%nat ->
  exists r, em_result expf lnf threads fuel c samples n (model_from vocab) r.
Proof.
  intros expf lnf vocab score width threads fuel c samples delta n Hexp Hln Hf HS Hv err work Hdelta Hd Hk Hfuel.
  exact (@good_total expf lnf score width threads fuel c samples delta Hexp Hln HS Hdelta Hd Hfuel n vocab (conj Hf (conj Hv Hk))).
Qed.
Print Assumptions C71_total.

(** ** The whole training *)
Lemma prune_vocab_In exp ln threads s1 s2 c m samples v t : valid_sorter s1 -> valid_sorter s2 -> prune_vocab_result exp ln threads s1 s2 c m samples (Ok v) -> In t v -> In t (m_vocab m).
Proof.
  intros H1 H2 H Hin. inversion H as [judged freqs HJ HC E| | |]; subst. destruct (@choose_spec _ _ _ _ _ _ _ _ _ H1 H2 E) as (fx & chosen & rest & ds & tf & tc & _ & HF & HC' & HV & _).
  apply (Permutation_in _ (Permutation_sym HV)) in Hin. apply in_app_or in Hin as [Hin|Hin].
  - clear - HF Hin. induction HF as [|i x l w [Ht _] _ IH]; [contradiction|]. destruct Hin as [->|Hin]; [eapply nth_error_In; eauto|auto].
  - clear - HC' Hin. induction HC' as [|i x l w Ht _ IH]; [contradiction|]. destruct Hin as [->|Hin]; [eapply nth_error_In; eauto|auto].
Qed.
(** Whatever happens between the EM steps, all of them are turns with the same error: a run that ends with a model is made of turns while there are
    too many tokens, and each of these is [pc_em_subiters] turns of EM followed by one pruning. *)
Theorem C71_run : forall expf lnf vocab score width threads s1 s2 fuel c samples delta m',
  accurate_exp expf -> accurate_ln lnf -> valid_sorter s1 -> valid_sorter s2 -> fits vocab -> 100 <= score ->
  (forall t, In t vocab -> is_finite (st_score t) = true /\ Rabs (B2R (st_score t)) <= score /\ (length (st_value t) <= width)%nat) ->
  let err := piece_rounding (N.to_nat 81920) width score in
  let work := INR (length (concat samples) + length samples) in
  2 * (err + work / 4503599627370496) + work * bpow radix2 (-1071) <= delta <= / 2 ->
  fltb f0 (pc_dropout c) = false -> Forall (kept_bytes vocab) samples -> (7 <= fuel)%nat ->
  prune_result expf lnf threads s1 s2 fuel c samples (model_from vocab) (Ok m') ->
  exists rounds v', m' = model_from v' /\ (length v' <= pc_vocab_size c)%nat /\
    chain (fun a b => (pc_vocab_size c < length a)%nat /\ exists ems v, length ems = Datatypes.S (pc_em_subiters c) /\ chain (turn delta samples) ems a v /\
      prune_vocab_result expf lnf threads s1 s2 c (model_from v) samples (Ok b)) rounds vocab v'.
Proof.
  intros expf lnf vocab score width threads s1 s2 fuel c samples delta m' Hexp Hln H1 H2 Hf HS Hv err work Hdelta Hd Hk Hfuel H.
  remember (model_from vocab) as m eqn:Em. remember (Ok m') as r eqn:Er. revert vocab Em Er Hf Hv Hk.
  induction H as [m Hs|m m1 vocab1 r Hs He Hp Hr IH|m r _ _ Hr|m m1|m m1 e]; intros vocab Em Er Hf Hv Hk; try discriminate; [| |subst r; destruct Hr; discriminate]; subst m.
  - injection Er as <-. exists [vocab], vocab. unfold vocab_size in Hs. rewrite model_from_vocab in Hs. split; [reflexivity|]. split; [exact Hs|apply chain_one].
  - destruct (@good_turns expf lnf score width threads fuel c samples delta Hexp Hln HS Hdelta Hd Hfuel _ vocab _ (conj Hf (conj Hv Hk)) He) as (ems & v & HC & [[E Hl]|[E _]]); [|discriminate]. injection E as ->.
    assert (Hg : fits v /\ (forall t, In t v -> is_finite (st_score t) = true /\ Rabs (B2R (st_score t)) <= score /\ (length (st_value t) <= width)%nat) /\ Forall (kept_bytes v) samples).
    { clear IH Hp Hr HC Hl Hs. remember (Ok (model_from v)) as r0 eqn:E0. remember (model_from vocab) as m0 eqn:E1. revert vocab E1 E0 Hf Hv Hk.
      induction He as [m0|n m0 freqs w r0 He Hm _ IH|n m0|n m0 freqs r0 _ [[-> _]|[-> _]]]; intros vocab E1 E0 Hf Hv Hk; try discriminate.
      - injection E0 as E0. subst m0. apply (f_equal m_vocab) in E0. rewrite !model_from_vocab in E0. subst vocab. auto.
      - subst m0. destruct (@good_turn expf lnf score width threads fuel c samples delta Hexp Hln HS Hdelta Hd Hfuel vocab _ (conj Hf (conj Hv Hk)) He) as [[? _]|(f' & w' & E & Hm' & _ & (G1 & G2 & G3))]; [discriminate|].
        injection E as <-. rewrite Hm in Hm'. injection Hm' as <-. exact (IH w eq_refl E0 G1 G2 G3). }
    destruct Hg as (G1 & G2 & G3). assert (Hsh := prune_vocab_shrunk H1 H2 Hp). rewrite model_from_vocab in Hsh.
    destruct (IH vocab1 eq_refl Er) as (rounds & v' & -> & Hle & HC').
    + eapply shrunk_fits; eauto.
    + intros t Ht. apply G2. apply (prune_vocab_In _ H1 H2 Hp) in Ht. now rewrite model_from_vocab in Ht.
    + eapply Forall_impl; [|exact G3]. intros s. now apply shrunk_kept_bytes.
    + exists (vocab :: rounds), v'. split; [reflexivity|]. split; [exact Hle|]. eapply chain_step; [|exact HC']. unfold vocab_size in Hs. rewrite model_from_vocab in Hs. split; [exact Hs|]. exists ems, v. auto.
Qed.
Print Assumptions C71_run.

(** ** How far two runs can be apart *)
Lemma pieces_same n samples pss pss' : Forall2 (pieces n) samples pss -> Forall2 (pieces n) samples pss' -> pss = pss'.
Proof. intros H. revert pss'. induction H as [|s ps samples pss H _ IH]; intros pss' H'; inversion H' as [|? ps' ? pss2 H1 H2]; subst; [reflexivity|]. f_equal; [exact (C53_pieces_unique H H1)|auto]. Qed.
Lemma cuts_same vocab s L L' : all_cuts vocab s L -> all_cuts vocab s L' -> Permutation L L'.
Proof. intros [H1 H2] [H1' H2']. apply NoDup_Permutation; [assumption|assumption|]. intros ids. now rewrite H2, H2'. Qed.
Lemma expected_same vocab pss Lss Lss' i : Forall2 (Forall2 (all_cuts vocab)) pss Lss -> Forall2 (Forall2 (all_cuts vocab)) pss Lss' -> expected_uses vocab Lss i = expected_uses vocab Lss' i.
Proof.
  unfold expected_uses. intros H. revert Lss'. induction H as [|ps Ls pss Lss H _ IH]; intros Lss' H'; inversion H' as [|? Ls' ? Lss2 H1 H2]; subst; [reflexivity|]. rewrite !sum_cons. f_equal; [|auto].
  clear - H H1. revert Ls' H1. induction H as [|p L ps Ls HL _ IH]; intros Ls' H'; inversion H' as [|? L' ? Ls2 H1 H2]; subst; [reflexivity|]. rewrite !sum_cons. f_equal; [|auto].
  assert (HP := cuts_same HL H1). unfold average_uses. rewrite (sum_perm (cut_weight vocab) HP). now apply sum_perm.
Qed.
(** Two runs of a turn on the same data, with any numbers of threads, keep the same tokens and give them almost the same scores, unless a token that is
    not protected is expected half a time, up to the error. *)
Theorem C71_same : forall delta samples vocab v v' pss Lss, 
  Forall2 (pieces (N.to_nat 81920)) samples pss -> Forall2 (Forall2 (all_cuts vocab)) pss Lss ->
  (forall i t, nth_error vocab i = Some t -> st_keep t = false -> expected_uses vocab Lss i < / 2 - delta \/ / 2 + delta <= expected_uses vocab Lss i) ->
  turn delta samples vocab v -> turn delta samples vocab v' ->
  Forall2 (fun t t' => st_value t = st_value t' /\ st_keep t = st_keep t' /\
    Rabs (B2R (st_score t) - B2R (st_score t')) <= 24 * delta + 4 / 10000000000 + 2 * INR (length v) / 100000000000000) v v'.
Proof.
  intros delta samples vocab v v' pss Lss HP HL Hn (pss1 & Lss1 & ids1 & HP1 & HL1 & HS1 & HI1 & HF1) (pss2 & Lss2 & ids2 & HP2 & HL2 & HS2 & HI2 & HF2).
  rewrite (pieces_same HP1 HP) in *. rewrite (pieces_same HP2 HP) in *. cbv zeta in *.
  assert (E1 : forall i, expected_uses vocab Lss1 i = expected_uses vocab Lss i) by (intros; eapply expected_same; eauto).
  assert (E2 : forall i, expected_uses vocab Lss2 i = expected_uses vocab Lss i) by (intros; eapply expected_same; eauto).
  assert (Hlt : forall ids w P, Forall2 (fun i (t' : scored_token) => exists t, nth_error vocab i = Some t /\ P i t t') ids w -> forall i, In i ids -> exists t, nth_error vocab i = Some t).
  { clear. intros ids w P H i Hi. destruct (Forall2_In_l _ H Hi) as (t' & _ & t & Ht & _). eauto. }
  assert (HI : forall ids Ls, (forall i, expected_uses vocab Ls i = expected_uses vocab Lss i) -> (forall i t, nth_error vocab i = Some t ->
    (st_keep t = true \/ / 2 + delta <= expected_uses vocab Ls i -> In i ids) /\ (In i ids -> st_keep t = true \/ / 2 - delta <= expected_uses vocab Ls i)) ->
    forall i t, nth_error vocab i = Some t -> (In i ids <-> st_keep t = true \/ / 2 + delta <= expected_uses vocab Lss i)).
  { clear - Hn. intros ids Ls E H i t Ht. destruct (H i t Ht) as [H1 H2]. rewrite E in *. split; [|exact H1]. intros Hi. destruct (H2 Hi) as [Hk|Hx]; [now left|]. destruct (st_keep t) eqn:Ek; [now left|]. right. destruct (Hn i t Ht Ek); lra. }
  assert (Eids : ids1 = ids2).
  { apply sorted_ext; [exact HS1|exact HS2|]. intros i. split; intros Hi.
    - destruct (Hlt _ _ _ HF1 i Hi) as [t Ht]. rewrite (HI _ _ E2 HI2 _ _ Ht). now rewrite <- (HI _ _ E1 HI1 _ _ Ht).
    - destruct (Hlt _ _ _ HF2 i Hi) as [t Ht]. rewrite (HI _ _ E1 HI1 _ _ Ht). now rewrite <- (HI _ _ E2 HI2 _ _ Ht). }
  subst ids2. rewrite <- (Forall2_len HF1). set (N := INR (length ids1)) in *.
  assert (Esum : forall Ls, (forall i, expected_uses vocab Ls i = expected_uses vocab Lss i) -> sum (fun i => Rmax (expected_uses vocab Ls i) (/ 2)) ids1 = sum (fun i => Rmax (expected_uses vocab Lss i) (/ 2)) ids1).
  { intros Ls E. apply sum_ext. intros i _. now rewrite E. }
  rewrite (Esum _ E1) in HF1. rewrite (Esum _ E2) in HF2. set (T := sum (fun i => Rmax (expected_uses vocab Lss i) (/ 2)) ids1) in *.
  assert (HT : ids1 <> [] -> 0 < T). { intros Hne. apply sum_pos; [|exact Hne]. intros i _. assert (Hx := Rmax_r (expected_uses vocab Lss i) (/ 2)). lra. }
  clearbody T N. clear HS1 HS2 HI1 HI2 HI Hlt Esum. revert v' HF2. induction HF1 as [|i t ids v Hi HF IH]; intros v' HF2; inversion HF2 as [|? t' ? v2 Hi' HF']; subst; constructor.
  - destruct Hi as (t0 & Ht0 & V1 & K1 & _ & B1). destruct Hi' as (t0' & Ht0' & V2 & K2 & _ & B2). assert (t0' = t0) by congruence. subst t0'. split; [congruence|]. split; [congruence|].
    rewrite E1 in B1. rewrite E2 in B2. assert (Hx := Rmax_r (expected_uses vocab Lss i) (/ 2)). destruct (@digamma_exists (Rmax (expected_uses vocab Lss i) (/ 2)) ltac:(lra)) as [phi Hphi]. destruct (@digamma_exists T (HT ltac:(discriminate))) as [psi Hpsi].
    specialize (B1 _ _ Hphi Hpsi). specialize (B2 _ _ Hphi Hpsi). apply DigammaReal.Rabs_le_inv in B1, B2. apply Rabs_le. lra.
  - destruct ids as [|j ids]; [inversion HF; subst; inversion HF'; subst; constructor|]. apply IH; [intros _; apply HT; discriminate|exact HF'].
Qed.
Print Assumptions C71_same.

(** ** Example *)
(** The tokens "a" and "b" of score -1 and "ab" of score -2, four samples "ab": every token is expected twice, so that all scores become
    psi (2) - psi (6) = - 77/60. *)
Lemma em_uses i : (i < 3)%nat -> average_uses r_vocab (N.of_nat i) [[0; 1]; [2]]%N = / 2.
Proof.
  intros Hi. destruct r_weights as [W1 W2]. unfold average_uses. rewrite !sum_cons, !sum_nil, W1, W2. assert (H := exp_pos (-2)).
  destruct i as [|[|[|i]]]; [| | |lia]; simpl; field; lra.
Qed.
Lemma psi_2_6 p q : digamma_at 2 p -> digamma_at 6 q -> q - p = 77 / 60.
Proof.
  intros Hp Hq. assert (H3 := @digamma_up 2 _ ltac:(lra) Hp). replace (2 + 1) with 3 in H3 by lra. assert (H4 := @digamma_up 3 _ ltac:(lra) H3). replace (3 + 1) with 4 in H4 by lra.
  assert (H5 := @digamma_up 4 _ ltac:(lra) H4). replace (4 + 1) with 5 in H5 by lra. assert (H6 := @digamma_up 5 _ ltac:(lra) H5). replace (5 + 1) with 6 in H6 by lra. rewrite (digamma_unique Hq H6). lra.
Qed.
Lemma em_rounding : 0 <= piece_rounding (N.to_nat 81920) 2 100 <= / 2500.
Proof. unfold piece_rounding. rewrite size_INR. replace (INR 2) with 2 by (simpl; lra). lra. Qed.
Example C71_example : forall threads, let c := PruneCfg 2 fhalf 1 f0 in let samples := repeat [x61; x62] 4 in
  (exists r, em_result exp64 ln64 threads 7 c samples 1 (model_from r_vocab) r) /\
  forall r, em_result exp64 ln64 threads 7 c samples 1 (model_from r_vocab) r ->
    exists a b ab, r = Ok (model_from [a; b; ab]) /\ map st_value [a; b; ab] = [[x61]; [x62]; [x61; x62]] /\
      Forall (fun t => is_finite (st_score t) = true /\ Rabs (B2R (st_score t) + 77 / 60) <= / 50) [a; b; ab].
Proof.
  intros threads c samples. assert (Hf : fits r_vocab) by (split; [reflexivity|repeat constructor]).
  assert (Hk : Forall (kept_bytes r_vocab) samples).
  { assert (H : kept_bytes r_vocab [x61; x62]) by (constructor; [exists (ST [x61] (sc (-1)) true); simpl; auto|constructor; [exists (ST [x62] (sc (-1)) true); simpl; auto|constructor]]). repeat (constructor; [exact H|]). constructor. }
  assert (Hc : Forall (covers r_vocab) samples) by (eapply Forall_impl; [|exact Hk]; intros; now apply kept_covers).
  assert (Hv : forall t, In t r_vocab -> is_finite (st_score t) = true /\ Rabs (B2R (st_score t)) <= 100 /\ (length (st_value t) <= 2)%nat).
  { intros t Ht. destruct (r_scores Ht) as (H1 & H2 & H3). split; [exact H1|]. split; [lra|exact H3]. }
  assert (Hr := em_rounding). assert (Hw : INR (length (concat samples) + length samples) = 12) by (simpl; lra).
  assert (Hb : 0 < bpow radix2 (-1071) <= / 1000000). { split; [apply bpow_gt_0|]. apply Rle_trans with (bpow radix2 (-30)); [apply bpow_le; lia|simpl; lra]. }
  assert (Hb2 : bpow radix2 (-1022) <= / 4) by (apply Rle_trans with (bpow radix2 (-2)); [apply bpow_le; lia|simpl; lra]).
  assert (Hdelta : 2 * (piece_rounding (N.to_nat 81920) 2 100 + INR (length (concat samples) + length samples) / 4503599627370496) + INR (length (concat samples) + length samples) * bpow radix2 (-1071) <= / 1000 <= / 2) by (rewrite Hw; lra).
  split; [exact (@C71_total exp64 ln64 r_vocab 100 2 threads 7 c samples (/ 1000) 1 exp64_accurate ln64_accurate Hf ltac:(lra) Hv Hdelta eq_refl Hk ltac:(lia))|].
  intros r H. assert (Hpp : pieces (N.to_nat 81920) [x61; x62] [[x61; x62]]).
  { split; [reflexivity|]. intros [|k] p Hk'; [|destruct k; discriminate]. injection Hk' as <-. split; [|cbn [length]; lia]. cbn [length]. split; [lia|].
    assert (H2 : (2 <= 81920)%N) by discriminate. revert H2. generalize 81920%N. intros n H2. lia. }
  set (pss := repeat [[x61; x62]] 4). assert (HP : Forall2 (pieces (N.to_nat 81920)) samples pss) by (unfold samples, pss; cbn [repeat]; repeat (constructor; [exact Hpp|]); constructor).
  assert (Hcuts : all_cuts r_vocab [x61; x62] [[0; 1]; [2]]%N) by apply ab_cuts.
  set (Lss := repeat [[[0; 1]; [2]]%N] 4). assert (HL : Forall2 (Forall2 (all_cuts r_vocab)) pss Lss) by (unfold pss, Lss; cbn [repeat]; repeat (constructor; [constructor; [exact Hcuts|constructor]|]); constructor).
  assert (HE : forall i, (i < 3)%nat -> expected_uses r_vocab Lss i = 2). { intros i Hi. unfold expected_uses, Lss. cbn [repeat]. rewrite !sum_cons, !sum_nil, em_uses by exact Hi. lra. }
  destruct (@C71_turn exp64 ln64 r_vocab 100 2 threads 7 c samples (/ 1000) r exp64_accurate ln64_accurate Hf ltac:(lra) Hv Hdelta eq_refl Hc ltac:(lia) H) as [(v & -> & HT)|[_ (pss' & p & L & HP' & Hin & HLp & HB)]].
  - destruct HT as (pss' & Lss' & ids & HP' & HL' & HS & HI & HF). rewrite (pieces_same HP' HP) in *. cbv zeta in *.
    assert (HE' : forall i, (i < 3)%nat -> expected_uses r_vocab Lss' i = 2) by (intros i Hi; rewrite <- (HE i Hi); eapply expected_same; eauto).
    assert (Eids : ids = [0; 1; 2]%nat).
    { apply sorted_ext; [exact HS|repeat constructor; lia|]. intros i. split; intros Hi.
      - destruct (Forall2_In_l _ HF Hi) as (t' & _ & t & Ht & _). assert (i < 3)%nat by (change 3%nat with (length r_vocab); apply nth_error_Some; congruence). destruct i as [|[|[|i]]]; simpl; auto; lia.
      - assert (H3 : (i < 3)%nat) by (destruct Hi as [<-|[<-|[<-|[]]]]; lia). destruct (nth_error_lt r_vocab H3) as [t Ht]. apply (proj1 (HI i t Ht)). right. rewrite HE' by exact H3. lra. }
    subst ids. assert (ES : sum (fun i => Rmax (expected_uses r_vocab Lss' i) (/ 2)) [0; 1; 2]%nat = 6). { rewrite !sum_cons, !sum_nil, !HE', !Rmax_left by (lia || lra). lra. }
    rewrite ES in HF. destruct (@digamma_exists 2 ltac:(lra)) as [p2 H2]. destruct (@digamma_exists 6 ltac:(lra)) as [p6 H6]. assert (HD := psi_2_6 H2 H6).
    assert (G : forall i t', (i < 3)%nat -> (exists t, nth_error r_vocab i = Some t /\ st_value t' = st_value t /\ st_keep t' = st_keep t /\ is_finite (st_score t') = true /\
      forall phi psi, digamma_at (Rmax (expected_uses r_vocab Lss' i) (/ 2)) phi -> digamma_at 6 psi -> Rabs (B2R (st_score t') - (phi - psi)) <= 12 * / 1000 + 2 / 10000000000 + INR (length [0; 1; 2]%nat) / 100000000000000) ->
      nth_error (map st_value r_vocab) i = Some (st_value t') /\ is_finite (st_score t') = true /\ Rabs (B2R (st_score t') + 77 / 60) <= / 50).
    { intros i t' Hi (t & Ht & V & _ & F & B). split; [rewrite V; now apply map_nth_error|]. split; [exact F|]. rewrite HE', Rmax_left in B by (exact Hi || lra). specialize (B _ _ H2 H6). replace (INR (length [0; 1; 2]%nat)) with 3 in B by (simpl; lra).
      apply DigammaReal.Rabs_le_inv in B. apply Rabs_le. lra. }
    inversion HF as [|? a ? v1 Ha HF1]; subst. inversion HF1 as [|? b ? v2 Hb' HF2]; subst. inversion HF2 as [|? ab ? v3 Hab HF3]; subst. inversion HF3; subst.
    apply G in Ha as [Va Qa]; [|lia]. apply G in Hb' as [Vb Qb]; [|lia]. apply G in Hab as [Vab Qab]; [|lia]. exists a, b, ab. split; [reflexivity|]. split; [|auto]. cbn in Va, Vb, Vab. cbn [map]. injection Va as <-. injection Vb as <-. injection Vab as <-. reflexivity.
  - exfalso. rewrite (pieces_same HP' HP) in Hin. assert (Ep : p = [x61; x62]) by (simpl in Hin; intuition congruence). subst p. rewrite (sum_perm _ (cuts_same HLp Hcuts)) in HB. assert (HT := r_total). lra.
Qed.
(** A run of one round: the vocabulary of three tokens is to have two. *)
Example C71_run_example : forall threads s1 s2, valid_sorter s1 -> valid_sorter s2 -> exists rounds v' m',
  prune_result exp64 ln64 threads s1 s2 7 exp_cfg [] (model_from exp_vocab) (Ok m') /\ m' = model_from v' /\ (length v' <= 2)%nat /\ (2 <= length rounds)%nat /\
  chain (fun a b => (2 < length a)%nat /\ exists ems v, length ems = Datatypes.S (pc_em_subiters exp_cfg) /\ chain (turn (/ 1000) []) ems a v /\
    prune_vocab_result exp64 ln64 threads s1 s2 exp_cfg (model_from v) [] (Ok b)) rounds exp_vocab v'.
Proof.
  intros threads s1 s2 H1 H2. destruct (@exp_pruned exp64 ln64 threads s1 s2 7 H1 H2) as [m' H]. assert (Hr := em_rounding).
  destruct (@C71_run exp64 ln64 exp_vocab 100 2 threads s1 s2 7 exp_cfg [] (/ 1000) m' exp64_accurate ln64_accurate H1 H2 (proj1 exp_room) ltac:(lra)) as (rounds & v' & E & Hl & HC).
  - intros t Ht. assert (G : st_score t = f0 /\ (length (st_value t) <= 2)%nat) by (destruct Ht as [<-|[<-|[<-|[]]]]; split; simpl; auto). destruct G as [-> G]. split; [reflexivity|]. split; [change (B2R f0) with 0; rewrite Rabs_R0; lra|exact G].
  - cbn [length concat Nat.add INR]. rewrite Rmult_0_l. unfold Rdiv. rewrite Rmult_0_l. lra.
  - reflexivity.
  - constructor.
  - lia.
  - exact H.
  - exists rounds, v', m'. split; [exact H|]. split; [exact E|]. split; [exact Hl|]. split; [|exact HC]. apply chain_inv in HC as [(-> & <-)|(l' & b & -> & _ & HC)]; [change (pc_vocab_size exp_cfg) with 2%nat in Hl; simpl in Hl; lia|].
    destruct l'; [destruct HC; discriminate|simpl; lia].
Qed.
