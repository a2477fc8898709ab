(** Properties of the E-step of training (src/prune.rs) in exact arithmetic: C53. *)
From Coq Require Import Reals Lra Permutation.
From Flocq Require Import IEEE754.BinarySingleNaN.
From Verif Require Import Base BaseProofs F64 Model SpecModel EncodeProofs Par Lattice RealArith SpecMarginal MarginalProofs Prune PruneProofs SpecPrune EStepProofs.
Set Implicit Arguments.
Local Open Scope nat_scope.

(** ** C53 *)
(** Every sample can be cut, in finitely many ways. *)
Theorem C53_cuts : forall vocab s, fits vocab -> covers vocab s -> exists L, all_cuts vocab s L /\ L <> [].
Proof.
  intros vocab s Hf Hc. destruct (cuts_exist Hf Hc) as [L HL]. exists L. split; [exact HL|]. intros ->.
  assert (HC : exists ids, Cut vocab ids s).
  { clear HL. induction Hc as [|b s (t & Ht & Hv) Hc IH]; [exists []; constructor|]. destruct IH as [ids Hids].
    destruct (latest_exists _ _ Ht) as (id & t' & Hlat & Hv'). exists (id :: ids). change (b :: s) with ([b] ++ s). rewrite <- Hv, <- Hv'. constructor; [exact Hlat|congruence|exact Hids]. }
  destruct HC as [ids HC]. destruct HL as [_ HL]. now apply HL in HC.
Qed.
Print Assumptions C53_cuts.

Lemma sum_concat {A} (f : A -> R) ls : sum f (concat ls) = sum (sum f) ls.
Proof. induction ls as [|l ls IH]; [reflexivity|]. cbn [concat]. now rewrite sum_app, sum_cons, IH. Qed.

(** Whatever the number of threads and the order in which the chunks end: the frequency of a token is the number of times it
    is expected in the pieces of the samples, if a cut is as probable as the product of its tokens; the relative error is the
    one of the cut-off of [log_sum_exp].  The assertion on the normaliser is the only panic. *)
Theorem C53_e_step : forall vocab normal threads c samples r, fits vocab -> fltb f0 (pc_dropout c) = false -> Forall (covers vocab) samples ->
  estep_result R_arith (@B2R prec64 emax64) normal threads c (model_from vocab) samples r ->
  r = Panic /\ (exists z, normal z = false) \/
  exists freqs pss, r = Ok freqs /\ length freqs = length vocab /\ Forall2 (pieces (N.to_nat 81920)) samples pss /\
    forall Lss, Forall2 (Forall2 (all_cuts vocab)) pss Lss ->
    forall i, i < length vocab ->
      let err := (INR (N.to_nat 81920 * length vocab) * epsilon)%R in
      let expected := sum (sum (average_uses vocab (N.of_nat i))) Lss in
      (exp (- err) * expected <= nth i freqs 0 <= exp err * expected)%R.
Proof.
  intros vocab normal threads c samples r Hf Hd Hc H. destruct (@estep_spec vocab Hf normal c threads Hd samples r Hc H) as [HP|(freqs & HO & Hl & HB)]; [now left|right].
  exists freqs, (map snippets samples). split; [exact HO|]. split; [exact Hl|]. split.
  - clear. induction samples as [|s ss IH]; constructor; [apply snippets_pieces|exact IH].
  - intros Lss HF i Hi. cbv zeta. 
    assert (HF' : Forall2 (fun s Ls => Forall2 (all_cuts vocab) (snippets s) Ls) samples Lss).
    { clear - HF. revert Lss HF. induction samples as [|s ss IH]; intros Lss HF; inversion HF; subst; constructor; auto. }
    specialize (HB Lss HF' i Hi). unfold uses in HB. rewrite sum_concat in HB. exact HB.
Qed.
Print Assumptions C53_e_step.
(** It can always be computed. *)
Theorem C53_total : forall vocab normal threads c samples, fits vocab -> fltb f0 (pc_dropout c) = false -> Forall (covers vocab) samples -> (forall z, normal z = true) ->
  exists freqs, estep_result R_arith (@B2R prec64 emax64) normal threads c (model_from vocab) samples (Ok freqs).
Proof. intros. now apply estep_total. Qed.
Print Assumptions C53_total.
(** The pieces of a sample are determined. *)
Theorem C53_pieces_unique : forall n s ps qs, pieces n s ps -> pieces n s qs -> ps = qs.
Proof.
  intros n s ps. revert s. induction ps as [|p ps IH]; intros s qs [E1 H1] [E2 H2]; destruct qs as [|q qs].
  - reflexivity.
  - destruct (H2 0 q eq_refl) as [H _]. subst s. destruct q; simpl in *; [lia|discriminate].
  - destruct (H1 0 p eq_refl) as [H _]. subst s. destruct p; simpl in *; [lia|discriminate].
  - cbn [concat] in *. assert (Hpq : length p = length q).
    { assert (HL : length p + length (concat ps) = length q + length (concat qs)) by (rewrite <- !app_length; congruence).
      destruct (H1 0 p eq_refl) as [Hp Hp']. destruct (H2 0 q eq_refl) as [Hq Hq']. cbn [length] in Hp', Hq'.
      destruct ps as [|p2 ps], qs as [|q2 qs]; cbn [concat length] in *; rewrite ?app_length in HL; [lia| | |rewrite Hp', Hq'; lia].
      - destruct (H2 1 q2 eq_refl) as [Hq2 _]. rewrite Hq' in * by lia. lia.
      - destruct (H1 1 p2 eq_refl) as [Hp2 _]. rewrite Hp' in * by lia. lia. }
    assert (Hp : p = firstn (length p) s) by (rewrite <- E1, firstn_app, firstn_all, Nat.sub_diag, firstn_O; now rewrite app_nil_r).
    assert (Hq : q = firstn (length q) s) by (rewrite <- E2, firstn_app, firstn_all, Nat.sub_diag, firstn_O; now rewrite app_nil_r).
    assert (E : p = q) by congruence. subst q. f_equal. apply (IH (concat ps)).
    + split; [reflexivity|]. intros k x Hk. destruct (H1 (S k) x Hk) as [Ha Hb]. split; [exact Ha|]. intros HS. apply Hb. cbn [length]. lia.
    + split; [rewrite <- E2 in E1; now apply app_inv_head in E1|]. intros k x Hk. destruct (H2 (S k) x Hk) as [Ha Hb]. split; [exact Ha|]. intros HS. apply Hb. cbn [length]. lia.
Qed.
Print Assumptions C53_pieces_unique.

(** ** Example *)
(** The tokens "a", "b", "ab", all of score 0: the two cuts of "ab" are equally probable, so two samples "ab" contain one "ab". *)
Definition ab_vocab (x y z : f64) : list scored_token := [ST [x61] x true; ST [x62] y true; ST [x61; x62] z false].
Definition es_vocab : list scored_token := ab_vocab f0 f0 f0.
Lemma es_latest x y z id t : latest (ab_vocab x y z) id t <-> (id = 0 /\ t = ST [x61] x true \/ id = 1 /\ t = ST [x62] y true \/ id = 2 /\ t = ST [x61; x62] z false)%N.
Proof.
  assert (Hcase : forall i t, token_at (ab_vocab x y z) i t -> (i = 0 /\ t = ST [x61] x true \/ i = 1 /\ t = ST [x62] y true \/ i = 2 /\ t = ST [x61; x62] z false)%N).
  { intros i t' H. unfold token_at in H. destruct (N.to_nat i) as [|[|[|n]]] eqn:E; simpl in H; [left|right; left|right; right|destruct n; discriminate]; (split; [lia|congruence]). }
  split; [intros [H _]; now apply Hcase|]. intros H. split.
  - destruct H as [[-> ->]|[[-> ->]|[-> ->]]]; reflexivity.
  - intros id' t' Hlt H'. apply Hcase in H'. destruct H as [[-> ->]|[[-> ->]|[-> ->]]], H' as [[-> ->]|[[-> ->]|[-> ->]]]; try lia; discriminate.
Qed.
Lemma ab_cuts x y z : all_cuts (ab_vocab x y z) [x61; x62] [[0; 1]; [2]]%N.
Proof.
  split; [repeat constructor; simpl; intuition discriminate|]. intros ids. split.
  - intros [<-|[<-|[]]].
    + apply (@Cut_cons (ab_vocab x y z) 0 (ST [x61] x true) [1%N] [x62]); [apply es_latest; auto|discriminate|].
      apply (@Cut_cons (ab_vocab x y z) 1 (ST [x62] y true) [] []); [apply es_latest; auto|discriminate|constructor].
    + apply (@Cut_cons (ab_vocab x y z) 2 (ST [x61; x62] z false) [] []); [apply es_latest; auto|discriminate|constructor].
  - intros HC. inversion HC as [|id t ids' s' Hlat _ HC' E1 E2]; subst. apply es_latest in Hlat as [[-> ->]|[[-> ->]|[-> ->]]]; simpl in E2; try discriminate; injection E2 as ->.
    + inversion HC' as [|id t ids2 s2 Hlat _ HC2 E1 E2]; subst. apply es_latest in Hlat as [[-> ->]|[[-> ->]|[-> ->]]]; simpl in E2; try discriminate. injection E2 as ->.
      inversion HC2 as [E|id t ids3 s3 Hlat _ _ E1 E2]; subst; [now left|]. apply es_latest in Hlat as [[-> ->]|[[-> ->]|[-> ->]]]; discriminate.
    + inversion HC' as [E|id t ids3 s3 Hlat _ _ E1 E2]; subst; [right; now left|]. apply es_latest in Hlat as [[-> ->]|[[-> ->]|[-> ->]]]; discriminate.
Qed.
Lemma es_cuts : all_cuts es_vocab [x61; x62] [[0; 1]; [2]]%N.
Proof. apply ab_cuts. Qed.
Example C53_example : forall threads, let c := PruneCfg 2 fhalf 1 f0 in let samples := [[x61; x62]; [x61; x62]] in
  (exists freqs, estep_result R_arith (@B2R prec64 emax64) (fun _ => true) threads c (model_from es_vocab) samples (Ok freqs)) /\
  forall r, estep_result R_arith (@B2R prec64 emax64) (fun _ => true) threads c (model_from es_vocab) samples r ->
    exists freqs, r = Ok freqs /\ let err := (INR (N.to_nat 81920 * 3) * epsilon)%R in (exp (- err) * 1 <= nth 2 freqs 0 <= exp err * 1)%R.
Proof.
  intros threads c samples. assert (Hf : fits es_vocab) by (split; [reflexivity|repeat constructor]).
  assert (Hc : Forall (covers es_vocab) samples).
  { assert (H : covers es_vocab [x61; x62]) by (constructor; [exists (ST [x61] f0 true); simpl; auto|constructor; [exists (ST [x62] f0 true); simpl; auto|constructor]]). repeat (constructor; [exact H|]). constructor. }
  split; [now apply C53_total|]. intros r H.
  destruct (C53_e_step Hf (c := c) eq_refl Hc H) as [[_ [z Hz]]|(freqs & pss & Hr & _ & Hp & HB)]; [discriminate|]. exists freqs. split; [exact Hr|].
  assert (Hmax := max_pos). unfold max_sample_length in Hmax.
  assert (Hpp : pieces (N.to_nat 81920) [x61; x62] [[x61; x62]]).
  { split; [reflexivity|]. intros [|k] p Hk; [|destruct k; discriminate]. injection Hk as <-. split; [|cbn [length]; lia]. cbn [length]. split; [lia|].
    assert (H2 : (2 <= 81920)%N) by discriminate. revert H2. generalize 81920%N. intros n H2. lia. }
  assert (Epss : pss = [[[x61; x62]]; [[x61; x62]]]).
  { inversion Hp as [|? p1 ? pss1 H1 Hp1]; subst. inversion Hp1 as [|? p2 ? pss2 H2 Hp2]; subst. inversion Hp2; subst.
    rewrite (C53_pieces_unique H1 Hpp), (C53_pieces_unique H2 Hpp). reflexivity. }
  subst pss. specialize (HB [[[[0; 1]; [2]]]; [[[0; 1]; [2]]]]%N). assert (HE : average_uses es_vocab 2 [[0; 1]; [2]]%N = (/ 2)%R).
  { assert (H1 : cut_weight es_vocab [0; 1]%N = 1%R) by (unfold cut_weight, real_score, sum; simpl; rewrite <- exp_0; f_equal; lra).
    assert (H2 : cut_weight es_vocab [2]%N = 1%R) by (unfold cut_weight, real_score, sum; simpl; rewrite <- exp_0; f_equal; lra).
    unfold average_uses. rewrite !sum_cons, !sum_nil, H1, H2. simpl. lra. }
  specialize (HB (Forall2_cons _ _ (Forall2_cons _ _ es_cuts (Forall2_nil _)) (Forall2_cons _ _ (Forall2_cons _ _ es_cuts (Forall2_nil _)) (Forall2_nil _))) 2 ltac:(simpl; lia)). cbv zeta in HB. rewrite !sum_cons, !sum_nil in HB. change (N.of_nat 2) with 2%N in HB. rewrite HE in HB.
  replace (/ 2 + 0 + (/ 2 + 0 + 0))%R with 1%R in HB by lra. exact HB.
Qed.
