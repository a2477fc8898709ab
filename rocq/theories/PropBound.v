(** Properties of EM training (src/prune.rs): what a turn increases. C75. *)
From Coq Require Import ZArith Reals Psatz Permutation Sorted.
From Flocq Require Import Core BinarySingleNaN.
From Verif Require Import Base BaseProofs F64 F64Proofs FloatErr Model ModelProofs SpecModel EncodeProofs Sort SortProofs Par ParProofs Lattice SpecLattice LatticeProofs RealArith SpecMarginal MarginalProofs
  PropMarginal Prune PruneProofs PropPrune SpecPrune EStepProofs PropEStep SpecNumeric SpecDigamma DigammaReal NumericProofs PropNumeric SpecExp LseProofs FloatMarginal FloatSum FloatEStep PropRound SpecEm EmProofs PropEm
  SpecBound BoundReal BoundProofs.
Set Implicit Arguments.
Local Open Scope R_scope.

(** ** The logarithm of the gamma function *)
(** The limit exists, for all positive numbers; it is 0 at 1, and grows by ln x from x to x + 1. *)
Theorem C75_log_gamma : exists lg, log_gamma lg /\ lg 1 = 0 /\ forall x, 0 < x -> lg (x + 1) = lg x + ln x.
Proof.
  exists lgamma. split; [exact lgamma_ok|]. split.
  - assert (H := @lgamma_ok 1 ltac:(lra)). apply (UL_sequence _ _ _ H). intros eps He. exists O. intros n _.
    assert (E : 1 * ln (INR (S n)) + sum (fun k => ln (INR k)) (seq 1 n) - sum (fun k => ln (1 + INR k)) (seq 0 (S n)) = 0).
    { replace (sum (fun k => ln (1 + INR k)) (seq 0 (S n))) with (sum (fun k => ln (INR k)) (seq 1 (S n))).
      - rewrite (seq_S n 1), sum_app, sum_cons, sum_nil. change (1 + n)%nat with (S n). ring.
      - rewrite <- seq_shift, sum_map. apply sum_ext. intros k _. rewrite S_INR. f_equal. ring. }
    rewrite E. unfold R_dist. rewrite Rminus_0_r, Rabs_R0. exact He.
  - intros x Hx. assert (H := @lgamma_ok x Hx). assert (H1 := @lgamma_ok (x + 1) ltac:(lra)). apply (UL_sequence _ _ _ H1).
    assert (HD : Un_cv (fun n => ln (INR (S n)) - ln (x + INR (S n)) + ln x) (ln x)).
    { intros eps He. destruct (@eventually_small x ltac:(lra) eps He) as [N HN]. exists N. intros n Hn. specialize (HN n Hn). assert (Hm : 0 < INR (S n)) by (apply lt_0_INR; lia). set (m := INR (S n)) in *. clearbody m.
      assert (A1 := @ln_diff (x + m) m ltac:(lra) Hm). assert (A2 : ln m <= ln (x + m)) by (apply Rlt_le, ln_increasing; lra). replace ((x + m - m) / m) with (x / m) in A1 by (field; lra). unfold R_dist. apply Rabs_def1; lra. }
    intros eps He. destruct (CV_plus _ _ _ _ H HD eps He) as [N HN]. exists N. intros n Hn. specialize (HN n Hn).
    assert (E : (x + 1) * ln (INR (S n)) + sum (fun k => ln (INR k)) (seq 1 n) - sum (fun k => ln (x + 1 + INR k)) (seq 0 (S n)) =
      x * ln (INR (S n)) + sum (fun k => ln (INR k)) (seq 1 n) - sum (fun k => ln (x + INR k)) (seq 0 (S n)) + (ln (INR (S n)) - ln (x + INR (S n)) + ln x)).
    { assert (E1 : sum (fun k => ln (x + 1 + INR k)) (seq 0 (S n)) = sum (fun k => ln (x + INR k)) (seq 1 (S n))) by (rewrite <- seq_shift, sum_map; apply sum_ext; intros k _; rewrite S_INR; f_equal; ring).
      assert (E2 : sum (fun k => ln (x + INR k)) (seq 0 (S n)) + ln (x + INR (S n)) = ln x + sum (fun k => ln (x + INR k)) (seq 1 (S n))).
      { assert (E3 : sum (fun k => ln (x + INR k)) (seq 0 (S (S n))) = sum (fun k => ln (x + INR k)) (seq 0 (S n)) + ln (x + INR (S n))) by (rewrite (seq_S (S n) 0), sum_app, sum_cons, sum_nil; change (0 + S n)%nat with (S n); ring).
        rewrite <- E3. change (seq 0 (S (S n))) with (O :: seq 1 (S n)). rewrite sum_cons. f_equal. simpl INR. f_equal. ring. }
      rewrite E1. lra. }
    rewrite E. exact HN.
Qed.
Print Assumptions C75_log_gamma.

(** ** Exact arithmetic *)
(** EM in exact arithmetic: the scores are those of the counts, and the new counts those expected under the scores. As long as every token is expected half a time,
    the objective does not fall, for any number of turns. *)
Theorem C75_exact : forall lg n Lss (f s : nat -> N -> R), log_gamma lg -> in_range n Lss ->
  (forall k i, In i (all_ids n) -> / 2 <= f k i) -> (forall k, scores_of 0 n (f k) (s k)) -> (forall k i, In i (all_ids n) -> f (Datatypes.S k) i = uses_of (s k) Lss i) ->
  forall a b, (a <= b)%nat -> objective lg n (s a) (f a) Lss <= objective lg n (s b) (f b) Lss.
Proof.
  intros lg n Lss f s HL HR Hf Hs Hu a b Hab. induction Hab as [|b _ IH]; [lra|]. eapply Rle_trans; [exact IH|].
  assert (H := @objective_step lg n (f b) (s b) (s (Datatypes.S b)) (s b) Lss 0 HL HR (Hf b) (Hs b)).
  assert (H1 : forall i, In i (all_ids n) -> Rabs (s b i - s b i) <= 0) by (intros i _; rewrite Rminus_eq_0, Rabs_R0; lra). specialize (H H1). cbv beta zeta in H.
  assert (Hf' : forall i, In i (all_ids n) -> Rmax (uses_of (s b) Lss i) (/ 2) = f (Datatypes.S b) i). { intros i Hi. rewrite Hu by exact Hi. apply Rmax_left. rewrite <- Hu by exact Hi. now apply Hf. }
  assert (E0 : sum (fun i => (Rmax (uses_of (s b) Lss i) (/ 2) - uses_of (s b) Lss i) * (s (Datatypes.S b) i - s b i)) (all_ids n) = 0).
  { rewrite (@sum_ext _ _ (fun _ => 0 * 0) (all_ids n)); [rewrite sum_scal; ring|]. intros i Hi. rewrite Hf', Hu by exact Hi. ring. }
  rewrite E0 in H. assert (E1 : objective lg n (s (Datatypes.S b)) (fun i => Rmax (uses_of (s b) Lss i) (/ 2)) Lss = objective lg n (s (Datatypes.S b)) (f (Datatypes.S b)) Lss).
  { unfold objective. do 2 f_equal; [apply sum_ext; intros i Hi; now rewrite Hf'|]. f_equal; [apply sum_ext; intros i Hi; now rewrite Hf'|]. f_equal. now apply sum_ext. }
  rewrite E1 in H. rewrite Rmult_0_l in H. lra.
Qed.
Print Assumptions C75_exact.

(** ** The program *)
Lemma all_sorted n (ids : list nat) : StronglySorted lt ids -> (forall i, In i ids -> (i < n)%nat) -> length ids = n -> ids = seq 0 n.
Proof.
  intros HS Hlt Hlen. apply sorted_ext; [exact HS|clear; generalize 0%nat; induction n as [|n IH]; intros a; simpl; constructor; [apply IH|apply Forall_forall; intros x Hx; apply in_seq in Hx; lia]|].
  assert (HND : NoDup ids) by (clear - HS; induction HS as [|i l _ IH H]; constructor; [|exact IH]; intros Hin; apply (proj1 (Forall_forall _ _) H) in Hin; lia).
  intros i. split; intros Hi; [apply in_seq; specialize (Hlt i Hi); lia|].
  apply (@NoDup_length_incl _ ids (seq 0 n) HND); [rewrite seq_length; lia|intros j Hj; apply in_seq; specialize (Hlt j Hj); lia|exact Hi].
Qed.
Lemma same_values vocab vocab' : Forall2 (fun t t' => st_value t' = st_value t) vocab vocab' -> forall ids s, Cut vocab ids s -> Cut vocab' ids s.
Proof.
  intros H. assert (Hn : forall i, match nth_error vocab i, nth_error vocab' i with Some t, Some t' => st_value t' = st_value t | None, None => True | _, _ => False end).
  { induction H as [|t t' v v' Ht _ IH]; intros [|i]; simpl; auto. apply IH. }
  induction 1 as [|id t ids s [Ht Hl] Hv _ IH]; [constructor|]. assert (Hi := Hn (N.to_nat id)). unfold token_at in *. rewrite Ht in Hi. destruct (nth_error vocab' (N.to_nat id)) as [t'|] eqn:Et'; [|contradiction].
  rewrite <- Hi. constructor; [|rewrite Hi; exact Hv|exact IH]. split; [exact Et'|]. intros id' u' Hid Hu'. assert (Hj := Hn (N.to_nat id')). unfold token_at in Hu'. rewrite Hu' in Hj. destruct (nth_error vocab (N.to_nat id')) as [u|] eqn:Eu; [|contradiction].
  rewrite Hj, Hi. exact (Hl id' u Hid Eu).
Qed.
Lemma same_cuts vocab vocab' s L : Forall2 (fun t t' => st_value t' = st_value t) vocab vocab' -> all_cuts vocab s L -> all_cuts vocab' s L.
Proof.
  intros H [H1 H2]. split; [exact H1|]. intros ids. rewrite H2. split; [now apply same_values|]. apply same_values. clear - H. induction H; constructor; auto.
Qed.
Lemma cuts_range vocab pss Lss : Forall2 (Forall2 (all_cuts vocab)) pss Lss -> in_range (length vocab) Lss.
Proof.
  assert (HC : forall ids s, Cut vocab ids s -> Forall (fun id => In id (all_ids (length vocab))) ids).
  { induction 1 as [|id t ids s [Ht _] _ _ IH]; constructor; [|exact IH]. unfold token_at in Ht. apply in_map_iff. exists (N.to_nat id). split; [apply N2Nat.id|]. apply in_seq. assert (N.to_nat id < length vocab)%nat by (apply nth_error_Some; congruence). lia. }
  intros H. unfold in_range. induction H as [|ps Ls pss Lss H _ IH]; constructor; [|exact IH]. clear IH. induction H as [|p L ps Ls [_ H] _ IH]; constructor; [|exact IH]. apply Forall_forall. intros ids Hids. apply (HC ids p). now apply H.
Qed.
Lemma uses_bytes vocab s samples pss Lss : Forall2 (pieces (N.to_nat 81920)) samples pss -> Forall2 (Forall2 (all_cuts vocab)) pss Lss ->
  sum (uses_of s Lss) (all_ids (length vocab)) <= INR (length (concat samples)).
Proof.
  intros HP HL. replace (length (concat samples)) with (list_sum (map list_sum (map (map (@length byte)) pss))).
  - apply uses_total; [eapply cuts_range; eauto|]. clear HP. induction HL as [|ps Ls pss Lss H _ IH]; simpl; constructor; [|exact IH]. clear IH. induction H as [|p L ps Ls [_ H] _ IH]; simpl; constructor; [|exact IH].
    apply Forall_forall. intros ids Hids. apply (@cut_length vocab). now apply H.
  - clear HL. induction HP as [|x ps samples pss [H _] _ IH]; [reflexivity|]. cbn [map list_sum fold_right concat]. fold (list_sum (map list_sum (map (map (@length byte)) pss))). rewrite app_length, <- IH, <- H. f_equal. clear. induction ps as [|p ps IH]; [reflexivity|]. simpl. rewrite app_length, <- IH. reflexivity.
Qed.

Lemma Forall2_nth_error_l {A B} (P : A -> B -> Prop) l l' : Forall2 P l l' -> forall i a, nth_error l i = Some a -> exists b, nth_error l' i = Some b /\ P a b.
Proof. induction 1 as [|x y l l' H _ IH]; intros [|i] a Ha; try discriminate; [injection Ha as <-; exists y; auto|exact (IH i a Ha)]. Qed.
Local Ltac splits := repeat match goal with |- _ /\ _ => split end.

(** The counts after a turn: the expected numbers of uses, or 1/2. *)
Definition next_counts (vocab : list scored_token) (Lss : list (list (list (list N)))) (i : N) : R := Rmax (uses_of (vocab_score vocab) Lss i) (/ 2).

(** A turn that drops no token: if the scores of the vocabulary are, up to [e], those of the counts [f], then the new ones are, up to the error of a turn, those of the new counts,
    and the objective has not fallen by more than [2 e] per byte of the samples and, for a token expected less than half a time, what it lacks of it times the change of its score. *)
Theorem C75_turn : forall lg delta samples vocab vocab' pss Lss f s s' e,
  log_gamma lg -> 0 <= e -> turn delta samples vocab vocab' -> length vocab' = length vocab ->
  Forall2 (pieces (N.to_nat 81920)) samples pss -> Forall2 (Forall2 (all_cuts vocab)) pss Lss ->
  let n := length vocab in let ids := all_ids n in let f' := next_counts vocab Lss in
  (forall i, In i ids -> / 2 <= f i) -> scores_of 0 n f s -> scores_of 0 n f' s' -> (forall i, In i ids -> Rabs (vocab_score vocab i - s i) <= e) ->
  Forall2 (Forall2 (all_cuts vocab')) pss Lss /\
  (forall i, In i ids -> / 2 <= f' i /\ Rabs (vocab_score vocab' i - s' i) <= 12 * delta + 2 / 10000000000 + INR n / 100000000000000) /\
  objective lg n s f Lss - 2 * e * INR (length (concat samples)) - sum (fun i => (f' i - uses_of (vocab_score vocab) Lss i) * (s' i - s i)) ids <= objective lg n s' f' Lss.
Proof.
  intros lg delta samples vocab vocab' pss Lss f s s' e HL He (pss1 & Lss1 & ids1 & HP1 & HL1 & HS & HI & HF) Hlen HP HLs n ids f' Hf Hs Hs' Hv.
  rewrite (pieces_same HP1 HP) in *. cbv zeta in *. assert (EX : forall i, expected_uses vocab Lss1 i = uses_of (vocab_score vocab) Lss (N.of_nat i)) by (intros i; rewrite (expected_same i HL1 HLs); reflexivity).
  assert (Hids : ids1 = seq 0 n).
  { apply all_sorted; [exact HS| |].
    - intros i Hi. destruct (Forall2_In_l _ HF Hi) as (t' & _ & t & Ht & _). apply nth_error_Some. congruence.
    - assert (H : length ids1 = length vocab') by (clear - HF; induction HF; simpl; congruence). unfold n. congruence. }
  subst ids1. assert (ES : sum (fun i => Rmax (expected_uses vocab Lss1 i) (/ 2)) (seq 0 n) = sum f' ids). { unfold ids, all_ids. rewrite sum_map. apply sum_ext. intros i _. unfold f', next_counts. now rewrite EX. }
  rewrite ES in HF. rewrite seq_length in HF.
  assert (Hnth : forall i t', nth_error vocab' i = Some t' -> exists t, nth_error vocab i = Some t /\ st_value t' = st_value t /\
    forall phi psi, digamma_at (f' (N.of_nat i)) phi -> digamma_at (sum f' ids) psi -> Rabs (B2R (st_score t') - (phi - psi)) <= 12 * delta + 2 / 10000000000 + INR n / 100000000000000).
  { intros i t' Ht'. assert (Hi : (i < n)%nat) by (unfold n; rewrite <- Hlen; apply nth_error_Some; congruence). assert (Es : nth_error (seq 0 n) i = Some i) by (rewrite nth_error_nth' with (d := 0%nat) by (rewrite seq_length; exact Hi); rewrite seq_nth by exact Hi; reflexivity).
    destruct (Forall2_nth_error_l HF i Es) as (u & Hu & t & Ht & Hv1 & _ & _ & HB). assert (u = t') by congruence. subst u. exists t. split; [exact Ht|]. split; [exact Hv1|].
    rewrite EX in HB. exact HB. }
  splits.
  - assert (HV : Forall2 (fun t t' => st_value t' = st_value t) vocab vocab').
    { apply Forall2_nth; [congruence|]. intros i a b Ha Hb. destruct (Hnth i b Hb) as (t & Ht & Hvt & _). congruence. }
    clear - HV HLs. induction HLs as [|ps Ls pss Lss H _ IH]; constructor; [|exact IH]. clear IH. induction H as [|p L ps Ls H _ IH]; constructor; [eapply same_cuts; eauto|exact IH].
  - intros i Hi. assert (Hh : / 2 <= f' i) by (unfold f', next_counts; apply Rmax_r). split; [exact Hh|]. assert (Hi' := Hi). apply in_map_iff in Hi' as (k & <- & Hk). apply in_seq in Hk. destruct (@nth_error_lt _ vocab' k) as [t' Ht']; [unfold n in Hk; lia|].
    unfold vocab_score. rewrite Nat2N.id, Ht'. destruct (Hnth k t' Ht') as (t & _ & _ & HB). assert (HF' : / 2 <= sum f' ids). { apply sum_half; [intros; unfold f', next_counts; apply Rmax_r|intros E; unfold ids in *; rewrite E in Hi; destruct Hi]. }
    destruct (@digamma_exists (f' (N.of_nat k)) ltac:(lra)) as [phi Hphi]. destruct (@digamma_exists (sum f' ids) ltac:(lra)) as [psi Hpsi]. assert (H1 := HB phi psi Hphi Hpsi). assert (H2 := Hs' (N.of_nat k) phi psi Hi Hphi Hpsi).
    apply DigammaReal.Rabs_le_inv in H1, H2. apply Rabs_le. lra.
  - assert (H := @objective_step lg n f s s' (vocab_score vocab) Lss e HL (cuts_range HLs) Hf Hs Hv). cbv beta zeta in H. assert (B1 := @uses_bytes vocab s samples pss Lss HP HLs). assert (B2 := @uses_bytes vocab (vocab_score vocab) samples pss Lss HP HLs).
    fold n in B1, B2. change (fun i => Rmax (uses_of (vocab_score vocab) Lss i) (/ 2)) with f' in H. fold ids in H, B1, B2. assert (e * (sum (uses_of s Lss) ids + sum (uses_of (vocab_score vocab) Lss) ids) <= e * (2 * INR (length (concat samples)))) by (apply Rmult_le_compat_l; lra).
    assert (E : sum (fun i => (Rmax (uses_of (vocab_score vocab) Lss i) (/ 2) - uses_of (vocab_score vocab) Lss i) * (s' i - s i)) ids = sum (fun i => (f' i - uses_of (vocab_score vocab) Lss i) * (s' i - s i)) ids) by reflexivity.
    rewrite E in H. lra.
Qed.
Print Assumptions C75_turn.

(** ** Several turns *)
Lemma choose (l : list N) (P : N -> R -> Prop) : (forall i, In i l -> exists w, P i w) -> exists s, forall i, In i l -> P i (s i).
Proof.
  induction l as [|j l IH]; intros H; [exists (fun _ => 0); intros i []|]. destruct IH as [s Hs]; [intros i Hi; apply H; now right|]. destruct (H j (or_introl eq_refl)) as [w Hw].
  exists (fun i => if N.eq_dec i j then w else s i). intros i Hi. destruct (N.eq_dec i j) as [->|Hne]; [exact Hw|]. destruct Hi as [<-|Hi]; [congruence|auto].
Qed.
Lemma scores_exist n f : (forall i, In i (all_ids n) -> / 2 <= f i) -> exists s, scores_of 0 n f s.
Proof.
  intros Hf. destruct n as [|n]; [exists (fun _ => 0); intros i phi psi []|]. assert (HF := @sum_half N f (all_ids (S n)) Hf ltac:(discriminate)). destruct (@digamma_exists (sum f (all_ids (S n))) ltac:(lra)) as [psi Hpsi].
  destruct (@choose (all_ids (S n)) (fun i w => exists phi, digamma_at (f i) phi /\ w = phi - psi)) as [s Hs].
  { intros i Hi. specialize (Hf i Hi). destruct (@digamma_exists (f i) ltac:(lra)) as [phi Hphi]. exists (phi - psi), phi. auto. }
  exists s. intros i phi' psi' Hi Hphi' Hpsi'. destruct (Hs i Hi) as (phi & Hphi & ->). rewrite (digamma_unique Hphi' Hphi), (digamma_unique Hpsi' Hpsi), Rminus_eq_0, Rabs_R0. lra.
Qed.
(** Turns in which no token is dropped and every token is expected half a time: the objective does not fall by more than [2 e] per turn and byte, [e] the error of the scores. *)
Theorem C75_turns : forall lg delta samples e pss Lss vs vocab v f s,
  log_gamma lg -> 0 <= e -> 12 * delta + 2 / 10000000000 + INR (length vocab) / 100000000000000 <= e -> chain (turn delta samples) vs vocab v ->
  Forall2 (pieces (N.to_nat 81920)) samples pss -> Forall2 (Forall2 (all_cuts vocab)) pss Lss ->
  let n := length vocab in let ids := all_ids n in
  (forall k x y, nth_error vs k = Some x -> nth_error vs (Datatypes.S k) = Some y -> length y = n /\ forall i, In i ids -> / 2 <= uses_of (vocab_score x) Lss i) ->
  (forall i, In i ids -> / 2 <= f i) -> scores_of 0 n f s -> (forall i, In i ids -> Rabs (vocab_score vocab i - s i) <= e) ->
  exists f' s', (forall i, In i ids -> / 2 <= f' i) /\ scores_of 0 n f' s' /\ (forall i, In i ids -> Rabs (vocab_score v i - s' i) <= e) /\
    objective lg n s f Lss - INR (length vs - 1) * (2 * e * INR (length (concat samples))) <= objective lg n s' f' Lss.
Proof.
  intros lg delta samples e pss Lss vs. induction vs as [|x0 vs IH]; intros vocab v f s HL He Hd HC HP HLs n ids Hk Hf Hs Hv; [destruct HC; discriminate|].
  apply chain_inv in HC as [(Evs & <-)|(l' & b & Evs & Hab & HC)].
  - injection Evs as -> ->. exists f, s. splits; auto. simpl. rewrite Rmult_0_l. lra.
  - injection Evs as -> ->. assert (Hlb : nth_error l' 0 = Some b) by (destruct HC; assumption). destruct (Hk 0%nat vocab b eq_refl Hlb) as [Hlen Hu].
    set (f1 := next_counts vocab Lss). assert (Hf1 : forall i, In i ids -> / 2 <= f1 i) by (intros; apply Rmax_r). destruct (@scores_exist n f1 Hf1) as [s1 Hs1].
    destruct (@C75_turn lg delta samples vocab b pss Lss f s s1 e HL He Hab Hlen HP HLs Hf Hs Hs1 Hv) as (HL1 & Hn1 & HO).
    assert (E0 : sum (fun i => (next_counts vocab Lss i - uses_of (vocab_score vocab) Lss i) * (s1 i - s i)) (all_ids (length vocab)) = 0).
    { rewrite (@sum_ext _ _ (fun _ => 0 * 0) (all_ids (length vocab))); [rewrite sum_scal; ring|]. intros i Hi. unfold next_counts. rewrite Rmax_left by now apply Hu. ring. }
    rewrite E0 in HO.
    destruct (IH b v f1 s1 HL He) as (f' & s' & Hf' & Hs' & Hv' & HO'); rewrite ?Hlen; auto.
    + intros k x y Hx Hy. exact (Hk (Datatypes.S k) x y Hx Hy).
    + intros i Hi. destruct (Hn1 i Hi) as [_ H]. lra.
    + exists f', s'. rewrite Hlen in Hf', Hs', Hv', HO'. splits; auto. fold n in HO, HO'. fold f1 in HO. cbn [length]. rewrite Nat.sub_succ, Nat.sub_0_r. destruct l' as [|z l']; [discriminate|]. cbn [length] in *. rewrite Nat.sub_succ, Nat.sub_0_r in HO'. rewrite S_INR. lra.
Qed.
Print Assumptions C75_turns.

(** The program: [n] turns of EM on the counts [f]. *)
Theorem C75_training : forall lg expf lnf vocab score width threads fuel c samples delta n m' pss Lss f s,
  log_gamma lg -> accurate_exp expf -> accurate_ln lnf -> fits vocab -> 100 <= score ->
  (forall t, In t vocab -> is_finite (st_score t) = true /\ Rabs (B2R (st_score t)) <= score /\ (length (st_value t) <= width)%nat) ->
  let err := piece_rounding (N.to_nat 81920) width score in
  let work := INR (length (concat samples) + length samples) in
  2 * (err + work / 4503599627370496) + work * bpow radix2 (-1071) <= delta <= / 2 ->
  fltb f0 (pc_dropout c) = false -> Forall (kept_bytes vocab) samples -> (7 <= fuel)%nat ->
  em_result expf lnf threads fuel c samples n (model_from vocab) (Ok m') ->
  Forall2 (pieces (N.to_nat 81920)) samples pss -> Forall2 (Forall2 (all_cuts vocab)) pss Lss ->
  let size := length vocab in let ids := all_ids size in let e := 12 * delta + 2 / 10000000000 + INR size / 100000000000000 in
  (forall i, In i ids -> / 2 <= f i) -> scores_of 0 size f s -> (forall i, In i ids -> Rabs (vocab_score vocab i - s i) <= e) ->
  exists vs v, m' = model_from v /\ length vs = Datatypes.S n /\ chain (turn delta samples) vs vocab v /\
    ((forall k x y, nth_error vs k = Some x -> nth_error vs (Datatypes.S k) = Some y -> length y = size /\ forall i, In i ids -> / 2 <= uses_of (vocab_score x) Lss i) ->
     exists f' s', (forall i, In i ids -> / 2 <= f' i) /\ scores_of 0 size f' s' /\ (forall i, In i ids -> Rabs (vocab_score v i - s' i) <= e) /\
       objective lg size s f Lss - INR n * (2 * e * INR (length (concat samples))) <= objective lg size s' f' Lss).
Proof.
  intros lg expf lnf vocab score width threads fuel c samples delta n m' pss Lss f s HL Hexp Hln Hfit HS Hv err work Hdelta Hd Hk Hfuel H HP HLs size ids e Hf Hs Hvs.
  destruct (@C71_turns expf lnf vocab score width threads fuel c samples delta n (Ok m') Hexp Hln Hfit HS Hv Hdelta Hd Hk Hfuel H) as (vs & v & HC & [[E Hlen]|[E _]]); [|discriminate]. injection E as ->.
  exists vs, v. splits; auto. intros Hall. assert (Hdp : 0 <= delta).
  { assert (H1 := @rounding_pos (N.to_nat 81920) width score ltac:(lra)). fold err in H1. assert (H2 : 0 <= work) by apply pos_INR. assert (H3 := bpow_gt_0 radix2 (-1071)). assert (0 <= work * bpow radix2 (-1071)) by (apply Rmult_le_pos; lra). lra. }
  assert (He : 0 <= e) by (assert (Hp := pos_INR size); unfold e; lra).
  destruct (@C75_turns lg delta samples e pss Lss vs vocab v f s HL He (Rle_refl _) HC HP HLs Hall Hf Hs Hvs) as (f' & s' & H1 & H2 & H3 & H4). exists f', s'. splits; auto. rewrite Hlen, Nat.sub_succ, Nat.sub_0_r in H4. exact H4.
Qed.
Print Assumptions C75_training.

(** ** The likelihood may fall *)
(** The tokens "a" and "b", the text "ab", the counts 2 and 2: the scores are psi (2) - psi (4) = -5/6, and those of the new counts, 1 and 1, are -1. *)
Lemma psi_up_2 p q x : 0 < x -> digamma_at x p -> digamma_at (x + 2) q -> q - p = / x + / (x + 1).
Proof.
  intros Hx Hp Hq. assert (H1 := @digamma_up x _ Hx Hp). assert (H2 := @digamma_up (x + 1) _ ltac:(lra) H1). replace (x + 1 + 1) with (x + 2) in H2 by ring. rewrite (digamma_unique Hq H2). lra.
Qed.
Theorem C75_likelihood_refuted : exists n Lss f s s', in_range n Lss /\ (forall i, In i (all_ids n) -> / 2 <= f i) /\ scores_of 0 n f s /\
  (forall i, In i (all_ids n) -> / 2 <= uses_of s Lss i) /\ scores_of 0 n (uses_of s Lss) s' /\ log_likelihood s' Lss < log_likelihood s Lss.
Proof.
  set (Lss := [[[[0; 1]]]]%N). assert (HU : forall s i, In i (all_ids 2) -> uses_of s Lss i = 1).
  { intros s i Hi. unfold uses_of, Lss. rewrite !sum_cons, !sum_nil. assert (H := weight_of_pos s [0; 1]%N). simpl in Hi. destruct Hi as [<-|[<-|[]]]; simpl; field; lra. }
  exists 2%nat, Lss, (fun _ => 2), (fun _ => - (5 / 6)), (fun _ => -1). splits.
  - repeat (apply Forall_cons || apply Forall_nil); simpl; auto.
  - intros. lra.
  - intros i phi psi Hi Hphi Hpsi. replace (sum (fun _ => 2) (all_ids 2)) with (2 + 2) in Hpsi by (unfold sum; simpl; ring). assert (H := @psi_up_2 phi psi 2 ltac:(lra) Hphi Hpsi). apply Rabs_le. lra.
  - intros i Hi. rewrite HU by exact Hi. lra.
  - intros i phi psi Hi Hphi Hpsi. rewrite HU in Hphi by exact Hi. replace (sum (uses_of (fun _ => - (5 / 6)) Lss) (all_ids 2)) with 2 in Hpsi by (change (all_ids 2) with [0; 1]%N; rewrite !sum_cons, sum_nil, !HU by (simpl; auto); ring).
    assert (H1 := @digamma_up 1 _ ltac:(lra) Hphi). replace (1 + 1) with 2 in H1 by ring. rewrite (digamma_unique Hpsi H1). apply Rabs_le. lra.
  - unfold log_likelihood, Lss, weight_of. rewrite !sum_cons, !sum_nil, !Rplus_0_r, !ln_exp. lra.
Qed.
Print Assumptions C75_likelihood_refuted.

(** ** Example *)
(** The tokens "a", "b" and "ab", four texts "ab", the counts 2, 2 and 2, so that all scores are psi (2) - psi (6) = -77/60: one turn leads to the counts 4 p, 4 p and 4 (1 - p), p = 1 / (1 + exp (77/60)),
    all of them above 1/2. *)
Lemma exp_77 : exp (77 / 60) <= 6.
Proof.
  apply Rle_trans with (exp (1 + 1 / 2)); [apply exp_le; lra|]. rewrite exp_plus. assert (H1 := exp_le_3). assert (H2 : exp (1 / 2) <= 2). { assert (H := exp_ineq1_le (- (1 / 2))). rewrite exp_Ropp in H. assert (Hp := exp_pos (1 / 2)). assert (H3 : 1 / 2 * exp (1 / 2) <= / exp (1 / 2) * exp (1 / 2)) by (apply Rmult_le_compat_r; lra). rewrite Rinv_l in H3 by lra. lra. }
  assert (H3 := exp_pos 1). assert (H4 := exp_pos (1 / 2)). nra.
Qed.
Example C75_example : forall lg, log_gamma lg -> let Lss := repeat [[[0; 1]; [2]]%N] 4 in let s := fun _ : N => - (77 / 60) in
  in_range 3 Lss /\ scores_of 0 3 (fun _ => 2) s /\ (forall i, In i (all_ids 3) -> / 2 <= uses_of s Lss i) /\ uses_of s Lss 0 = 4 / (1 + exp (77 / 60)) /\
  exists s', scores_of 0 3 (uses_of s Lss) s' /\ objective lg 3 s (fun _ => 2) Lss <= objective lg 3 s' (uses_of s Lss) Lss.
Proof.
  intros lg HL Lss s. assert (HR : in_range 3 Lss) by (unfold Lss; cbn [repeat]; repeat (apply Forall_cons || apply Forall_nil); simpl; auto).
  assert (Hs : scores_of 0 3 (fun _ => 2) s). { intros i phi psi Hi Hphi Hpsi. replace (sum (fun _ => 2) (all_ids 3)) with 6 in Hpsi by (unfold sum; simpl; ring). assert (H := psi_2_6 Hphi Hpsi). unfold s. apply Rabs_le. lra. }
  set (x := exp (77 / 60)). assert (Hx : 1 <= x <= 6) by (split; [assert (H := exp_ineq1_le (77 / 60)); fold x in H; lra|exact exp_77]).
  assert (HW : weight_of s [0; 1]%N = / x * / x /\ weight_of s [2]%N = / x). { unfold weight_of, s. rewrite !sum_cons, !sum_nil, !Rplus_0_r, exp_plus, !exp_Ropp. fold x. auto. }
  destruct HW as [W1 W2].
  assert (HU : uses_of s Lss 0 = 4 / (1 + x) /\ uses_of s Lss 1 = 4 / (1 + x) /\ uses_of s Lss 2 = 4 * x / (1 + x)).
  { unfold uses_of, Lss. cbn [repeat]. rewrite !sum_cons, !sum_nil, W1, W2. simpl. repeat split; field; split; lra. }
  destruct HU as (U0 & U1 & U2).
  assert (Hu : forall i, In i (all_ids 3) -> / 2 <= uses_of s Lss i).
  { assert (B0 : / 2 <= 4 / (1 + x)) by (apply Rmult_le_reg_l with (1 + x); [lra|]; replace ((1 + x) * (4 / (1 + x))) with 4 by (field; lra); lra).
    assert (B2 : / 2 <= 4 * x / (1 + x)) by (apply Rmult_le_reg_l with (1 + x); [lra|]; replace ((1 + x) * (4 * x / (1 + x))) with (4 * x) by (field; lra); lra).
    intros i Hi. change (all_ids 3) with [0; 1; 2]%N in Hi. destruct Hi as [<-|[<-|[<-|[]]]]; [rewrite U0|rewrite U1|rewrite U2]; assumption. }
  splits; auto. destruct (@scores_exist 3 (uses_of s Lss) Hu) as [s' Hs']. exists s'. split; [exact Hs'|].
  assert (H := @objective_step lg 3 (fun _ => 2) s s' s Lss 0 HL HR ltac:(intros; lra) Hs ltac:(intros; rewrite Rminus_eq_0, Rabs_R0; lra)). cbv beta zeta in H.
  assert (HM : forall i, In i (all_ids 3) -> Rmax (uses_of s Lss i) (/ 2) = uses_of s Lss i) by (intros; apply Rmax_left; auto).
  assert (E0 : sum (fun i => (Rmax (uses_of s Lss i) (/ 2) - uses_of s Lss i) * (s' i - s i)) (all_ids 3) = 0).
  { rewrite (@sum_ext _ _ (fun _ => 0 * 0) (all_ids 3)); [rewrite sum_scal; ring|]. intros i Hi. rewrite HM by exact Hi. ring. }
  rewrite E0, Rmult_0_l in H.
  replace (objective lg 3 s' (uses_of s Lss) Lss) with (objective lg 3 s' (fun i => Rmax (uses_of s Lss i) (/ 2)) Lss); [lra|].
  unfold objective. do 2 f_equal; [apply sum_ext; intros i Hi; now rewrite HM|]. f_equal; [apply sum_ext; intros i Hi; now rewrite HM|]. f_equal. now apply sum_ext.
Qed.
(** The program on these texts, with the scores -41/32 = -1.28125. *)
Definition q : f64 := f64_of_Z_exp (-41) (-5).
Lemma q_is : is_finite q = true /\ B2R q = - (41 / 32).
Proof. split; [reflexivity|]. rewrite <- SF2R_B2SF. replace (B2SF q) with (SpecFloat.S754_finite true 5770237022568448 (-52)) by (vm_compute; reflexivity). unfold SF2R, F2R. simpl. lra. Qed.
Example C75_training_example : forall lg threads, log_gamma lg ->
  let vocab := ab_vocab q q q in let samples := repeat [x61; x62] 4 in let Lss := repeat [[[0; 1]; [2]]%N] 4 in let s := fun _ : N => - (77 / 60) in let e := 12 * / 1000 + 2 / 10000000000 + 3 / 100000000000000 in
  exists v f' s', em_result exp64 ln64 threads 7 (PruneCfg 2 fhalf 1 f0) samples 1 (model_from vocab) (Ok (model_from v)) /\
    scores_of 0 3 f' s' /\ (forall i, In i (all_ids 3) -> / 2 <= f' i /\ Rabs (vocab_score v i - s' i) <= e) /\ objective lg 3 s (fun _ => 2) Lss - 16 * e <= objective lg 3 s' f' Lss.
Proof.
  intros lg threads HL vocab samples Lss s e. set (c := PruneCfg 2 fhalf 1 f0). assert (Hfit : fits vocab) by (split; [reflexivity|repeat constructor]). destruct q_is as [Fq Eq].
  assert (Hk : Forall (kept_bytes vocab) samples).
  { assert (H : kept_bytes vocab [x61; x62]) by (constructor; [exists (ST [x61] q true); simpl; auto|constructor; [exists (ST [x62] q true); simpl; auto|constructor]]). repeat (constructor; [exact H|]). constructor. }
  assert (Hv : forall t, In t vocab -> is_finite (st_score t) = true /\ Rabs (B2R (st_score t)) <= 100 /\ (length (st_value t) <= 2)%nat).
  { intros t Ht. assert (G : st_score t = q /\ (length (st_value t) <= 2)%nat) by (destruct Ht as [<-|[<-|[<-|[]]]]; split; simpl; auto). destruct G as [-> G]. split; [exact Fq|]. split; [rewrite Eq; apply Rabs_le; lra|exact G]. }
  assert (Hr := em_rounding). assert (Hw : INR (length (concat samples) + length samples) = 12) by (simpl; lra).
  assert (Hb : 0 < bpow radix2 (-1071) <= / 1000000). { split; [apply bpow_gt_0|]. apply Rle_trans with (bpow radix2 (-30)); [apply bpow_le; lia|simpl; lra]. }
  assert (Hb2 : bpow radix2 (-1022) <= / 4) by (apply Rle_trans with (bpow radix2 (-2)); [apply bpow_le; lia|simpl; lra]).
  assert (Hdelta : 2 * (piece_rounding (N.to_nat 81920) 2 100 + INR (length (concat samples) + length samples) / 4503599627370496) + INR (length (concat samples) + length samples) * bpow radix2 (-1071) <= / 1000 <= / 2) by (rewrite Hw; lra).
  assert (Hpp : pieces (N.to_nat 81920) [x61; x62] [[x61; x62]]).
  { split; [reflexivity|]. intros [|k] p Hk'; [|destruct k; discriminate]. injection Hk' as <-. split; [|cbn [length]; lia]. cbn [length]. split; [lia|].
    assert (H2 : (2 <= 81920)%N) by discriminate. revert H2. generalize 81920%N. intros n H2. lia. }
  set (pss := repeat [[x61; x62]] 4). assert (HP : Forall2 (pieces (N.to_nat 81920)) samples pss) by (unfold samples, pss; cbn [repeat]; repeat (constructor; [exact Hpp|]); constructor).
  assert (Hcuts : all_cuts vocab [x61; x62] [[0; 1]; [2]]%N) by apply ab_cuts.
  assert (HLs : Forall2 (Forall2 (all_cuts vocab)) pss Lss) by (unfold pss, Lss; cbn [repeat]; repeat (constructor; [constructor; [exact Hcuts|constructor]|]); constructor).
  set (x := exp (41 / 32)). assert (Hx : 73 / 32 <= x <= 6) by (split; [assert (H := exp_ineq1_le (41 / 32)); fold x in H; lra|apply Rle_trans with (exp (77 / 60)); [apply exp_le; lra|exact exp_77]]).
  assert (HS : forall i, In i (all_ids 3) -> vocab_score vocab i = - (41 / 32)). { intros i Hi. change (all_ids 3) with [0; 1; 2]%N in Hi. destruct Hi as [<-|[<-|[<-|[]]]]; exact Eq. }
  assert (HW : weight_of (vocab_score vocab) [0; 1]%N = / x * / x /\ weight_of (vocab_score vocab) [2]%N = / x).
  { unfold weight_of. rewrite !sum_cons, !sum_nil, !Rplus_0_r, !HS by (simpl; auto). rewrite exp_plus, !exp_Ropp. auto. }
  destruct HW as [W1 W2].
  assert (HU : uses_of (vocab_score vocab) Lss 0 = 4 / (1 + x) /\ uses_of (vocab_score vocab) Lss 1 = 4 / (1 + x) /\ uses_of (vocab_score vocab) Lss 2 = 4 * x / (1 + x)).
  { unfold uses_of, Lss. cbn [repeat]. rewrite !sum_cons, !sum_nil, W1, W2. simpl. repeat split; field; split; lra. }
  destruct HU as (U0 & U1 & U2).
  assert (Hu : forall i, In i (all_ids 3) -> 4 / 7 <= uses_of (vocab_score vocab) Lss i).
  { assert (B0 : 4 / 7 <= 4 / (1 + x)) by (apply Rmult_le_reg_l with (1 + x); [lra|]; replace ((1 + x) * (4 / (1 + x))) with 4 by (field; lra); lra).
    assert (B2 : 4 / 7 <= 4 * x / (1 + x)) by (apply Rmult_le_reg_l with (1 + x); [lra|]; replace ((1 + x) * (4 * x / (1 + x))) with (4 * x) by (field; lra); lra).
    intros i Hi. change (all_ids 3) with [0; 1; 2]%N in Hi. destruct Hi as [<-|[<-|[<-|[]]]]; [rewrite U0|rewrite U1|rewrite U2]; assumption. }
  destruct (@C71_total exp64 ln64 vocab 100 2 threads 7 c samples (/ 1000) 1 exp64_accurate ln64_accurate Hfit ltac:(lra) Hv Hdelta eq_refl Hk ltac:(lia)) as [r H].
  destruct (@C71_turn exp64 ln64 vocab 100 2 threads 7 c samples (/ 1000) r exp64_accurate ln64_accurate Hfit ltac:(lra) Hv Hdelta eq_refl ltac:(eapply Forall_impl; [|exact Hk]; intros; now apply kept_covers) ltac:(lia) H) as [(v0 & -> & _)|[_ (pss' & p & L & HP' & Hin & HLp & HB)]].
  2: { exfalso. rewrite (pieces_same HP' HP) in Hin. assert (Ep : p = [x61; x62]) by (simpl in Hin; intuition congruence). subst p. rewrite (sum_perm _ (cuts_same HLp Hcuts)) in HB.
       assert (EZ : sum (cut_weight vocab) [[0; 1]; [2]]%N = / x * / x + / x). { change (cut_weight vocab) with (weight_of (vocab_score vocab)). rewrite !sum_cons, sum_nil, W1, W2. ring. }
       rewrite EZ in HB. assert (Hi : 0 < / x <= 32 / 73) by (split; [apply Rinv_0_lt_compat; lra|replace (32 / 73) with (/ (73 / 32)) by field; apply Rinv_le_contravar; lra]). assert (Hp : 0 < / x * / x + / x <= 7 / 10) by nra.
       set (Z := / x * / x + / x) in *. clearbody Z. assert (Hl := exp_ineq1_le (ln Z)). rewrite exp_ln in Hl by lra. apply DigammaReal.Rabs_le_inv in HB. lra. }
  assert (Hs : scores_of 0 3 (fun _ => 2) s). { intros i phi psi Hi Hphi Hpsi. replace (sum (fun _ => 2) (all_ids 3)) with 6 in Hpsi by (unfold sum; simpl; ring). assert (H1 := psi_2_6 Hphi Hpsi). unfold s. apply Rabs_le. lra. }
  destruct (@C75_training lg exp64 ln64 vocab 100 2 threads 7 c samples (/ 1000) 1 (model_from v0) pss Lss (fun _ => 2) s HL exp64_accurate ln64_accurate Hfit ltac:(lra) Hv Hdelta eq_refl Hk ltac:(lia) H HP HLs) as (vs & v & Ev & Hlen & HC & HO).
  { intros; lra. } { exact Hs. } { intros i Hi. rewrite HS by exact Hi. unfold s. replace (INR (length vocab)) with 3 by (simpl; lra). apply Rabs_le. lra. }
  destruct HO as (f' & s' & Hf' & Hs' & Hv' & HO).
  - intros k a b Ha Hb'. apply chain_inv in HC as [(-> & _)|(l' & b' & -> & HT & HC)]; [discriminate|]. destruct l' as [|b1 [|? ?]]; [destruct HC; discriminate| |simpl in Hlen; lia]. destruct HC as (Eb & _). injection Eb as ->.
    destruct k as [|[|k]]; [|discriminate|destruct k; discriminate]. injection Ha as <-. injection Hb' as <-. split; [|intros i Hi; assert (Hx' := Hu i Hi); lra].
    destruct HT as (pss1 & Lss1 & ids1 & HP1 & HL1 & HSo & HI & HF). rewrite (pieces_same HP1 HP) in HL1. cbv zeta in *. rewrite <- (Forall2_len HF). apply Nat.le_antisymm.
    + assert (HND : NoDup ids1) by (clear - HSo; induction HSo as [|i l _ IH H]; constructor; [|exact IH]; intros Hin; apply (proj1 (Forall_forall _ _) H) in Hin; lia).
      rewrite <- (seq_length (length vocab) 0). apply NoDup_incl_length; [exact HND|]. intros i Hi. destruct (Forall2_In_l _ HF Hi) as (t' & _ & t & Ht & _). apply in_seq. assert (i < length vocab)%nat by (apply nth_error_Some; congruence). lia.
    + rewrite <- (seq_length (length vocab) 0) at 1. apply NoDup_incl_length; [apply seq_NoDup|]. intros i Hi. apply in_seq in Hi. destruct (@nth_error_lt _ vocab i) as [t Ht]; [lia|]. apply (proj1 (HI i t Ht)). right.
      rewrite (expected_same i HL1 HLs). change (expected_uses vocab Lss i) with (uses_of (vocab_score vocab) Lss (N.of_nat i)). assert (Hx' := Hu (N.of_nat i)). assert (In (N.of_nat i) (all_ids 3)) by (apply in_map, in_seq; exact Hi). specialize (Hx' ltac:(assumption)). lra.
  - exists v, f', s'. rewrite <- Ev. splits; auto.
    + intros i Hi. split; [now apply Hf'|]. eapply Rle_trans; [apply Hv'; exact Hi|]. replace (INR (length vocab)) with 3 by (simpl; lra). unfold e. lra.
    + change (length vocab) with 3%nat in HO. replace (INR (length (concat samples))) with 8 in HO by (simpl; lra). replace (INR 3) with 3 in HO by (simpl; lra). fold e in HO. replace (INR 1) with 1 in HO by reflexivity. lra.
Qed.
