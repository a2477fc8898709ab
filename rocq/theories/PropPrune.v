(** Properties of pruning (src/prune.rs): C34, C35, C36, C45, and C32 for pruned vocabularies. *)
From Coq Require Import Permutation Sorted.
From Verif Require Import Base BaseProofs F64 F64Proofs Utf8 SpecUtf8 Trie Model ModelProofs SpecModel EncodeProofs Sort SortProofs Par ParProofs Lattice SpecLattice LatticeProofs
  PopulateProofs PropLattice NbestProofs PropNbest PropModel MergeProofs PropGenerate Prune PruneProofs SpecPrune.
Set Implicit Arguments.
Local Open Scope nat_scope.
Local Ltac splits := repeat match goal with |- _ /\ _ => split end.

(** ** C34 *)
(** The tokens number [ids] go on, in their order; only the scores are new. *)
Theorem C34_m_step : forall ln fuel m freqs v, m_step ln fuel m freqs = Ok v -> length freqs = length (m_vocab m) /\
  exists ids, StronglySorted lt ids /\
    (forall i t f, nth_error (m_vocab m) i = Some t -> nth_error freqs i = Some f -> (In i ids <-> st_keep t = true \/ fltb f fhalf = false)) /\
    Forall2 (fun i t' => exists t, nth_error (m_vocab m) i = Some t /\ st_value t' = st_value t /\ st_keep t' = st_keep t) ids v /\
    finite_scores v.
Proof.
  intros ln fuel m freqs v H. apply m_step_spec in H as (Hl & ids & total & HS & HI & HF & _). split; [exact Hl|]. exists ids. split; [exact HS|]. split; [|split].
  - intros i t f Ht Hf. rewrite HI. split; [intros (f' & t' & Hf' & Ht' & H); congruence|]. intros H. exists f, t. auto.
  - clear - HF. induction HF as [|i t' ids v (f & t & d & _ & Ht & _ & -> & _) _ IH]; constructor; [|exact IH]. exists t. auto.
  - clear - HF. induction HF as [|i t' ids v (f & t & d & _ & Ht & _ & -> & Hf) _ IH]; constructor; [|exact IH]. exact Hf.
Qed.
Print Assumptions C34_m_step.
(** The scores: the difference of the [digamma] of the frequency and the [digamma] of the sum of the frequencies of the tokens that go on;
    frequencies below 1/2 count as 1/2. *)
Theorem C34_scores : forall ln fuel m freqs v, m_step ln fuel m freqs = Ok v ->
  exists ids kept total, StronglySorted lt ids /\
    (forall i t f, nth_error (m_vocab m) i = Some t -> nth_error freqs i = Some f -> (In i ids <-> st_keep t = true \/ fltb f fhalf = false)) /\
    Forall2 (fun i x => exists f, nth_error freqs i = Some f /\ x = fmax f fhalf) ids kept /\
    digamma ln fuel (fold_left fadd kept f0) = Ok total /\
    Forall2 (fun x t' => exists d, digamma ln fuel x = Ok d /\ st_score t' = fsub d total) kept v.
Proof.
  intros ln fuel m freqs v H. apply m_step_spec in H as (Hl & ids & total & HS & HI & HF & kept & HK & HT). exists ids, kept, total. split; [exact HS|]. split; [|split; [exact HK|split; [exact HT|]]].
  - intros i t f Ht Hf. rewrite HI. split; [intros (f' & t' & Hf' & Ht' & H); congruence|]. intros H. exists f, t. auto.
  - clear - HF HK. revert kept HK. induction HF as [|i t' ids v (f & t & d & Hf & Ht & Hd & -> & _) _ IH]; intros kept HK; inversion HK as [|? x ? kept' (f' & Hf' & ->) HK']; subst; constructor; [|now apply IH].
    exists d. split; [|reflexivity]. congruence.
Qed.
Print Assumptions C34_scores.
(** [digamma] ends after at most 7 turns for everything but negative numbers, and so does the M-step, whatever the frequencies. *)
Theorem C34_digamma_ends : forall ln x, fleb f0 x = true \/ f_is_nan x = true -> exists y, digamma ln 7 x = Ok y.
Proof. intros ln x H. apply digamma_ends; [lia|tauto]. Qed.
Print Assumptions C34_digamma_ends.
Theorem C34_m_step_ends : forall ln fuel m freqs, 7 <= fuel -> length freqs = length (m_vocab m) ->
  (exists v, m_step ln fuel m freqs = Ok v) \/ m_step ln fuel m freqs = Panic.
Proof. intros. now apply m_step_total. Qed.
Print Assumptions C34_m_step_ends.
(** The assertion at its beginning holds for the result of the E-step. *)
Theorem C34_e_step_length : forall exp ln threads c m samples freqs, e_step_result exp ln threads c m samples (Ok freqs) -> length freqs = length (m_vocab m).
Proof. intros. eapply e_step_length; eauto. Qed.

(** ** C45 *)
(** However the samples are divided among threads: the number of times the token is in the encodings. *)
Theorem C45_token_counts : forall threads m samples freqs, count_result threads m samples (Ok freqs) ->
  exists idss, Forall2 (fun s ids => encode m (fun _ => f0) s f0 = Ok ids) samples idss /\ length freqs = length (m_vocab m) /\
    forall id, N.to_nat id < length (m_vocab m) -> nth_error freqs (N.to_nat id) = Some (count_occ N.eq_dec (concat idss) id).
Proof.
  intros threads m samples freqs H. destruct (count_result_spec H) as (idss & HE & HL & HN). exists idss. splits; auto. intros id Hi.
  rewrite (nth_error_nth' _ 0) by (rewrite HL; exact Hi). rewrite HN by exact Hi. now rewrite N2Nat.id.
Qed.
Print Assumptions C45_token_counts.
Lemma encodings_unique m samples : forall a b, encodings m samples a -> encodings m samples b -> a = b.
Proof. induction samples as [|s samples IH]; intros a b Ha Hb; inversion Ha; inversion Hb; subst; [reflexivity|]. f_equal; [congruence|auto]. Qed.
Theorem C45_schedule_independent : forall threads threads' m samples freqs freqs',
  count_result threads m samples (Ok freqs) -> count_result threads' m samples (Ok freqs') -> freqs = freqs'.
Proof.
  intros threads threads' m samples freqs freqs' H H'. destruct (count_result_spec H) as (a & Ha & La & Na). destruct (count_result_spec H') as (b & Hb & Lb & Nb).
  assert (a = b) by (eapply encodings_unique; eauto). subst b. apply nth_ext with (d := 0) (d' := 0); [congruence|]. intros i Hi. rewrite La in Hi. rewrite Na, Nb by exact Hi. reflexivity.
Qed.
Print Assumptions C45_schedule_independent.
(** Counting fails only for text that can not be encoded, and then with that error. *)
Lemma Cut_lt vocab ids s : Cut vocab ids s -> Forall (fun id => N.to_nat id < length vocab) ids.
Proof. induction 1 as [|id t ids s [Ht _] _ _ IH]; constructor; [|exact IH]. apply nth_error_Some. unfold token_at in Ht. congruence. Qed.
Lemma count_samples_total vocab samples : fits vocab -> forall freqs, length freqs = length vocab ->
  (exists freqs', count_samples (model_from vocab) samples freqs = Ok freqs') \/
  exists s, In s samples /\ count_samples (model_from vocab) samples freqs = Err (NoPath (length s) (length s)) /\ encode (model_from vocab) (fun _ => f0) s f0 = Err (NoPath (length s) (length s)).
Proof.
  intros Hf. induction samples as [|s samples IH]; intros freqs Hl; [left; simpl; eauto|]. cbn [count_samples].
  destruct (encode_total Hf (fun _ => f0) s f0) as [(ids & Hi)|He].
  - rewrite Hi. cbn [bind]. apply (encode_sound Hf) in Hi. apply Cut_lt in Hi. rewrite <- Hl in Hi. destruct (count_ids_ok _ Hi) as (f1 & H1). rewrite H1. cbn [bind].
    apply count_ids_spec in H1 as [H1 _]. destruct (IH f1 ltac:(congruence)) as [H|(s' & Hin & H)]; [now left|right]. exists s'. split; [now right|exact H].
  - right. exists s. split; [now left|]. rewrite He. auto.
Qed.
Theorem C45_fails : forall threads vocab samples r, fits vocab -> count_result threads (model_from vocab) samples r ->
  (exists freqs, r = Ok freqs) \/
  exists s, In s samples /\ r = Err (NoPath (length s) (length s)) /\ encode (model_from vocab) (fun _ => f0) s f0 = Err (NoPath (length s) (length s)).
Proof.
  intros threads vocab samples r Hf H. assert (HX : forall chunk x, In chunk (chunks (par_chunk_size threads (length samples) 2) samples) -> count_chunk (model_from vocab) chunk = x ->
    (exists f, x = Ok f) \/ exists s, In s samples /\ x = Err (NoPath (length s) (length s)) /\ encode (model_from vocab) (fun _ => f0) s f0 = Err (NoPath (length s) (length s))).
  { intros chunk x Hin <-. unfold count_chunk. destruct (@count_samples_total vocab chunk Hf (repeat 0 (vocab_size (model_from vocab)))) as [Hc|(s & Hs & Hc)].
    - rewrite repeat_length. unfold vocab_size. now rewrite model_from_vocab.
    - now left.
    - right. exists s. split; [|exact Hc]. rewrite <- (chunks_concat samples (par_chunk_pos threads (length samples) 2)). apply in_concat. eauto. }
  inversion H as [| chunk e Hin Hc|chunk Hin Hc]; subst; [eauto| |]; destruct (HX _ _ Hin Hc) as [(f & Hx)|Hx]; try discriminate; auto.
Qed.
Print Assumptions C45_fails.
(** ... and it has a result. *)
Theorem C45_result_exists : forall threads vocab samples, fits vocab -> exists r, count_result threads (model_from vocab) samples r.
Proof.
  intros threads vocab samples Hf. set (cs := chunks (par_chunk_size threads (length samples) 2) samples).
  assert (HX : forall l, incl l cs -> (exists locals, Forall2 (fun chunk local => count_chunk (model_from vocab) chunk = Ok local) l locals) \/
    exists chunk e, In chunk cs /\ count_chunk (model_from vocab) chunk = Err e).
  { induction l as [|chunk l IH]; intros Hl; [left; exists []; constructor|]. destruct (IH (fun x Hx => Hl x (or_intror Hx))) as [(locals & HF)|H]; [|now right].
    destruct (@count_samples_total vocab chunk Hf (repeat 0 (vocab_size (model_from vocab)))) as [(f & Hc)|(s & Hs & Hc & _)].
    - rewrite repeat_length. unfold vocab_size. now rewrite model_from_vocab.
    - left. exists (f :: locals). now constructor.
    - right. exists chunk. eexists. split; [apply Hl; now left|exact Hc]. }
  destruct (HX cs (incl_refl _)) as [(locals & HF)|(chunk & e & Hin & Hc)].
  - eexists. apply count_ok with (locals := locals) (order := locals); [symmetry; now apply Forall2_len in HF|fold cs|reflexivity].
    clear - HF. intros i chunk local. revert i. induction HF as [|c lo cs ls H _ IH]; intros [|i]; simpl; try discriminate; [congruence|apply IH].
  - exists (Err e). eapply count_err; eauto.
Qed.
(** The frequencies of the E-step are floating point numbers, and their sum depends on the order in which the threads finish. *)
Theorem C45_float_order_matters : exists a b c : f64, f_is_finite a = true /\ f_is_finite b = true /\ f_is_finite c = true /\
  match fold_left (zip_add fadd) [[a]; [b]; [c]] [f0], fold_left (zip_add fadd) [[c]; [b]; [a]] [f0] with
  | [x], [y] => feqb x y = false /\ f_is_finite x = true /\ f_is_finite y = true
  | _, _ => False
  end.
Proof.
  exists (fdiv f1 (f64_of_Z 10)), (fdiv (f64_of_Z 2) (f64_of_Z 10)), (fdiv (f64_of_Z 3) (f64_of_Z 10)). cbn [fold_left zip_add]. splits; vm_compute; reflexivity.
Qed.
Print Assumptions C45_float_order_matters.

(** ** C35 *)
Lemma Forall2_at {A B} (R : A -> B -> Prop) l l' i a b : Forall2 R l l' -> nth_error l i = Some a -> nth_error l' i = Some b -> R a b.
Proof. intros H. revert i. induction H as [|x y l l' Hxy _ IH]; intros [|i] Ha Hb; try discriminate; [simpl in *; congruence|eauto]. Qed.
Theorem C35_prune_vocab : forall exp ln threads s1 s2 c vocab samples v, valid_sorter s1 -> valid_sorter s2 -> room vocab ->
  prune_vocab_result exp ln threads s1 s2 c (model_from vocab) samples (Ok v) ->
  exists idss freqs judged fixed chosen rest dropped tf tc,
    (* how often each token is used *)
    Forall2 (fun s ids => encode (model_from vocab) (fun _ => f0) s f0 = Ok ids) samples idss /\
    (forall i, i < length vocab -> nth_error freqs i = Some (count_occ N.eq_dec (concat idss) (N.of_nat i))) /\
    (* the alternatives of each token spell it with two or more tokens *)
    Forall2 (fun t j => judgement vocab (st_value t) j) vocab judged /\
    (* every token is of one of these four kinds; those of the first two make up the result *)
    Permutation (fixed ++ map fst chosen ++ map fst rest ++ dropped) (seq 0 (length vocab)) /\
    Forall2 (fun i t => nth_error vocab i = Some t) fixed tf /\ Forall2 (fun x t => nth_error vocab (fst x) = Some t) chosen tc /\ Permutation (tf ++ tc) v /\
    score_sorted v /\
    (* protected, or in use or preferred to its alternatives while having none *)
    (forall i t, In i fixed -> nth_error vocab i = Some t -> st_keep t = true \/
       exists n always, nth_error freqs i = Some n /\ nth_error judged i = Some (always, []) /\ (n <> 0 \/ always = true)) /\
    (* in use, with alternatives; the number is the loss *)
    (forall i x, In (i, x) (chosen ++ rest) -> exists t n always alts, nth_error vocab i = Some t /\ st_keep t = false /\ nth_error freqs i = Some n /\ n <> 0 /\
       nth_error judged i = Some (always, alts) /\ alts <> [] /\ loss ln freqs (length vocab) (length samples) n alts = Ok x) /\
    (* not in use, and can be spelled with others *)
    (forall i, In i dropped -> exists t, nth_error vocab i = Some t /\ st_keep t = false /\ nth_error freqs i = Some 0 /\ exists ids, 2 <= length ids /\ Cut vocab ids (st_value t)) /\
    (* the greatest losses are avoided *)
    (forall x y, In x chosen -> In y rest -> fleb (snd y) (snd x) = true) /\
    (* as many as there is room for *)
    let size := Nat.max (f64_as_usize (fmul (f64_of_nat (length vocab)) (pc_shrink_factor c))) (pc_vocab_size c) in
    (length fixed <= size -> length v = Nat.min size (length fixed + length (chosen ++ rest))) /\ (size < length fixed -> rest = []).
Proof.
  intros exp ln threads s1 s2 c vocab samples v H1 H2 HR H. inversion H as [judged freqs HJ HC E| | |]; subst. clear H.
  destruct (count_result_spec HC) as (idss & HE & HL & HN). unfold vocab_size in HL, HN. rewrite model_from_vocab in *.
  destruct (judge_spec HR HJ (Pool_with_capacity 32 16)) as (js & Ej & HJs). injection Ej as ->. cbn [app] in *.
  destruct (@choose_spec _ _ _ _ _ _ _ _ _ H1 H2 E) as (fx & chosen & rest & ds & tf & tc & HP & HF & HCh & HV & HS & HCa & HD & HLo & Hr & Hle).
  unfold pruned_size, vocab_size in *. rewrite model_from_vocab in *.
  assert (HLv : length v = length fx + length chosen).
  { rewrite <- (Permutation_length HV), app_length, <- (Forall2_len HF), <- (Forall2_len HCh). reflexivity. }
  exists idss, freqs, js, fx, chosen, rest, ds, tf, tc. splits; auto.
  - intros i Hi. rewrite (nth_error_nth' _ 0) by lia. now rewrite HN.
  - clear - HF. induction HF as [|i t l l' [Ht _] _ IH]; constructor; auto.
  - intros i t Hi Ht. destruct (Forall2_In_l _ HF Hi) as (t' & _ & Ht' & H). replace t with t' by congruence. exact H.
  - intros i x Hi. rewrite Forall_forall in HCa. destruct (HCa _ Hi) as (t & n & always & alts & Ht & Hk & Hn & Hj & Hn0 & Ha & Hlo & _). exists t, n, always, alts. auto 10.
  - intros i Hi. rewrite Forall_forall in HD. destruct (HD _ Hi) as (t & always & alts & Ht & Hk & Hn & Hj & Ha). exists t. splits; auto.
    assert (HJi : judgement vocab (st_value t) (always, alts)) by exact (Forall2_at i HJs Ht Hj).
    destruct HJi as [[J1 J2] _]. cbn [fst snd] in *. destruct Ha as [->|Ha]; [auto|]. destruct (J1 Ha) as (_ & Hl2 & HCut). eauto.
  - intros Hl. specialize (Hle Hl). rewrite app_length. destruct Hr as [->|Hr]; [simpl; lia|]. rewrite Hr. lia.
  - intros Hl. destruct Hr as [Hr|Hr]; [exact Hr|]. lia.
Qed.
Print Assumptions C35_prune_vocab.
(** In short: some tokens are left, unchanged; those removed were not protected. *)
Theorem C35_removes : forall exp ln threads s1 s2 c vocab samples v, valid_sorter s1 -> valid_sorter s2 -> room vocab ->
  prune_vocab_result exp ln threads s1 s2 c (model_from vocab) samples (Ok v) ->
  score_sorted v /\ exists removed, Permutation (v ++ removed) vocab /\ Forall (fun t => st_keep t = false) removed.
Proof.
  intros exp ln threads s1 s2 c vocab samples v H1 H2 HR H.
  destruct (C35_prune_vocab H1 H2 HR H) as (idss & freqs & judged & fx & chosen & rest & ds & tf & tc & _ & _ & _ & HP & HF & HC & HV & HS & _ & HCa & HD & _). split; [exact HS|].
  set (d := ST [] f0 false). exists (map (fun i => nth i vocab d) (map fst rest ++ ds)). split.
  - transitivity (map (fun i => nth i vocab d) (seq 0 (length vocab))); [|now rewrite map_nth_seq]. rewrite <- HP, <- HV. rewrite (app_assoc fx), (map_app _ (fx ++ map fst chosen)). apply Permutation_app_tail. rewrite map_app. apply Permutation_app.
    + assert (E : tf = map (fun i => nth i vocab d) fx); [|now rewrite E]. clear - HF. induction HF as [|i t l l' Ht _ IH]; [reflexivity|]. cbn [map]. rewrite <- IH. f_equal. symmetry. now apply nth_error_nth.
    + assert (E : tc = map (fun i => nth i vocab d) (map fst chosen)); [|now rewrite E]. clear - HC. induction HC as [|i t l l' Ht _ IH]; [reflexivity|]. cbn [map]. rewrite <- IH. f_equal. symmetry. now apply nth_error_nth.
  - apply Forall_forall. intros t Ht. apply in_map_iff in Ht as (i & <- & Hi). apply in_app_or in Hi as [Hi|Hi].
    + apply in_map_iff in Hi as ([j x] & <- & Hj). destruct (HCa j x) as (t & n & al & alts & Ht & Hk & _); [apply in_or_app; now right|]. cbn [fst]. now rewrite (nth_error_nth _ _ d Ht).
    + destruct (HD i Hi) as (t & Ht & Hk & _). now rewrite (nth_error_nth _ _ d Ht).
Qed.
Print Assumptions C35_removes.
(** A token that is not in use and can be spelled with others is removed. *)
Theorem C35_unused_removed : forall exp ln threads s1 s2 c vocab samples v t id, valid_sorter s1 -> valid_sorter s2 -> room vocab -> NoDup (map st_value vocab) ->
  prune_vocab_result exp ln threads s1 s2 c (model_from vocab) samples (Ok v) ->
  token_at vocab id t -> st_keep t = false -> st_value t <> [] ->
  (forall s ids, In s samples -> encode (model_from vocab) (fun _ => f0) s f0 = Ok ids -> ~ In id ids) ->
  (exists ids, 2 <= length ids /\ Cut vocab ids (st_value t)) -> few_cuts vocab (st_value t) -> ~ In t v.
Proof.
  intros exp ln threads s1 s2 c vocab samples v t id H1 H2 HR HND H Ht Hk Hne Hun Hcut Hfew Hin.
  destruct (C35_prune_vocab H1 H2 HR H) as (idss & freqs & judged & fx & chosen & rest & ds & tf & tc & HE & HN & HJ & HP & HF & HC & HV & HS & Hfx & HCa & HD & _).
  unfold token_at in Ht. assert (Hi : N.to_nat id < length vocab) by (apply nth_error_Some; congruence).
  assert (Hn0 : nth_error freqs (N.to_nat id) = Some 0).
  { rewrite (HN _ Hi), N2Nat.id. f_equal. apply count_occ_not_In. intros Hx. apply in_concat in Hx as (ids & Hx & Hy).
    clear - HE Hx Hy Hun. induction HE as [|s ids' samples idss He _ IH]; [contradiction|]. destruct Hx as [->|Hx]; [apply (Hun s ids); simpl; auto|]. apply IH; auto. intros s' i' Hs'. apply Hun. now right. }
  assert (HU : forall i, nth_error vocab i = Some t -> i = N.to_nat id).
  { intros i Hit. eapply (proj1 (NoDup_nth_error _) HND); [rewrite map_length; apply nth_error_Some; congruence|]. rewrite (map_nth_error _ _ _ Hit), (map_nth_error _ _ _ Ht). reflexivity. }
  apply (Permutation_in _ (Permutation_sym HV)), in_app_or in Hin. destruct Hin as [Hin|Hin].
  - assert (HX : exists i, In i fx /\ nth_error vocab i = Some t) by (clear - HF Hin; induction HF as [|i t' l l' Ht' _ IH]; [contradiction|]; destruct Hin as [->|Hin]; [exists i; simpl; auto|destruct (IH Hin) as (j & ? & ?); exists j; simpl; auto]).
    destruct HX as (i & Hi1 & Hit). assert (Ei := HU _ Hit). subst i. destruct (Hfx _ _ Hi1 Hit) as [Hx|(n & al & Hn & Hj & Hx)]; [congruence|]. assert (n = 0) by congruence. subst n. destruct Hx as [Hx|Hx]; [congruence|]. subst al.
    assert (J : judgement vocab (st_value t) (true, [])) by exact (Forall2_at _ HJ Ht Hj). destruct J as [_ J]. destruct (J Hfew) as [J1|J1]; auto; try discriminate.
    destruct (latest_exists _ _ (nth_error_In _ _ Ht)) as (id' & t' & Hl & Hv). exists id'. rewrite <- Hv, <- (app_nil_r (st_value t')). constructor; [exact Hl|congruence|constructor].
  - assert (HX : exists i x, In (i, x) chosen /\ nth_error vocab i = Some t) by (clear - HC Hin; induction HC as [|[i x] t' l l' Ht' _ IH]; [contradiction|]; destruct Hin as [->|Hin]; [exists i, x; simpl; auto|destruct (IH Hin) as (j & y & ? & ?); exists j, y; simpl; auto]).
    destruct HX as (i & x & Hi1 & Hit). assert (Ei := HU _ Hit). subst i. destruct (HCa _ x (in_or_app _ _ _ (or_introl Hi1))) as (t' & n & al & alts & _ & _ & Hn & Hn' & _). congruence.
Qed.
Print Assumptions C35_unused_removed.

(** ** C36 *)
Theorem C36_result : forall exp ln threads s1 s2 fuel c m samples m', valid_sorter s1 -> valid_sorter s2 ->
  prune_result exp ln threads s1 s2 fuel c samples m (Ok m') ->
  length (m_vocab m') <= pc_vocab_size c /\
  (* the same values and protections, less some that are not protected *)
  exists removed, Permutation (map (fun t => (st_value t, st_keep t)) (m_vocab m') ++ removed) (map (fun t => (st_value t, st_keep t)) (m_vocab m)) /\
    Forall (fun x => snd x = false) removed.
Proof. intros exp ln threads s1 s2 fuel c m samples m' H1 H2 H. destruct (prune_shrunk H1 H2 H) as [Hs Hl]. split; [exact Hl|exact Hs]. Qed.
Print Assumptions C36_result.
Theorem C36_protected : forall exp ln threads s1 s2 fuel c m samples m' t, valid_sorter s1 -> valid_sorter s2 ->
  prune_result exp ln threads s1 s2 fuel c samples m (Ok m') -> In t (m_vocab m) -> st_keep t = true ->
  exists t', In t' (m_vocab m') /\ st_value t' = st_value t /\ st_keep t' = true.
Proof.
  intros exp ln threads s1 s2 fuel c m samples m' t H1 H2 H Ht Hk. destruct (C36_result H1 H2 H) as (_ & removed & HP & HF).
  assert (Hin : In (st_value t, st_keep t) (map (fun t => (st_value t, st_keep t)) (m_vocab m))) by (apply in_map_iff; eauto).
  apply (Permutation_in _ (Permutation_sym HP)) in Hin. apply in_app_or in Hin as [Hin|Hin].
  - apply in_map_iff in Hin as (t' & E & Hin). exists t'. split; [exact Hin|]. injection E as E1 E2. split; congruence.
  - rewrite Forall_forall in HF. apply HF in Hin. simpl in Hin. congruence.
Qed.
(** With too many protected tokens there is no result. *)
Theorem C36_too_many_protected : forall exp ln threads s1 s2 fuel c m samples m', valid_sorter s1 -> valid_sorter s2 ->
  pc_vocab_size c < length (filter st_keep (m_vocab m)) -> ~ prune_result exp ln threads s1 s2 fuel c samples m (Ok m').
Proof.
  intros exp ln threads s1 s2 fuel c m samples m' H1 H2 Hlt H. destruct (C36_result H1 H2 H) as (Hl & removed & HP & HF).
  assert (HK : forall l, length (filter snd (map (fun t => (st_value t, st_keep t)) l)) = length (filter st_keep l)).
  { induction l as [|t l IH]; [reflexivity|]. cbn [map filter snd]. destruct (st_keep t); simpl; congruence. }
  assert (HLe : length (filter st_keep (m_vocab m)) <= length (m_vocab m')); [|lia].
  assert (HPf : forall a b : list (bytes * bool), Permutation a b -> length (filter snd a) = length (filter snd b)).
  { induction 1; simpl; auto; try (destruct (snd x); simpl; auto); try (destruct (snd y); simpl; auto); congruence. }
  rewrite <- HK, <- (HPf _ _ HP), filter_app, app_length, HK. assert (E0 : filter snd removed = []).
  { clear - HF. induction HF as [|x l Hx _ IH]; [reflexivity|]. cbn [filter]. now rewrite Hx. }
  rewrite E0. simpl. rewrite Nat.add_0_r. generalize (m_vocab m'). induction l as [|t l IH]; simpl; [lia|]. destruct (st_keep t); simpl; lia.
Qed.
Print Assumptions C36_too_many_protected.

Lemma shrunk_In vocab v t : shrunk vocab v -> In t v -> exists t', In t' vocab /\ st_value t' = st_value t.
Proof.
  intros (removed & HP & _) Ht. assert (Hin : In (vk t) (map vk vocab)) by (apply (Permutation_in _ HP), in_or_app; left; now apply in_map).
  apply in_map_iff in Hin as (t' & E & Hin). exists t'. split; [exact Hin|]. now injection E.
Qed.
Lemma shrunk_fits vocab v : shrunk vocab v -> fits vocab -> fits v.
Proof.
  intros Hs [Hl Hf]. assert (Hs' := Hs). destruct Hs' as (removed & HP & _). split.
  - apply Permutation_length in HP. rewrite app_length, !map_length in HP. lia.
  - apply Forall_forall. intros t Ht. destruct (shrunk_In t Hs Ht) as (t' & Ht' & <-). rewrite Forall_forall in Hf. auto.
Qed.
Lemma shrunk_room vocab v : shrunk vocab v -> room vocab -> room v.
Proof. intros Hs [Hf Hl]. split; [now apply (shrunk_fits Hs)|]. destruct Hs as (removed & HP & _). apply Permutation_length in HP. rewrite app_length, !map_length in HP. lia. Qed.
Lemma shrunk_byte_complete vocab v : shrunk vocab v -> byte_complete vocab -> byte_complete v.
Proof.
  intros (removed & HP & HF) Hb b Hx. destruct (Hb b Hx) as (t & Ht & Ev & Ek). assert (Hin : In (vk t) (map vk v ++ removed)) by (apply (Permutation_in _ (Permutation_sym HP)); now apply in_map).
  apply in_app_or in Hin as [Hin|Hin].
  - apply in_map_iff in Hin as (t' & E & Hin). exists t'. split; [exact Hin|]. injection E as E1 E2. split; congruence.
  - rewrite Forall_forall in HF. apply HF in Hin. simpl in Hin. congruence.
Qed.
Theorem C32_pruned : forall exp ln threads s1 s2 fuel c m samples m', valid_sorter s1 -> valid_sorter s2 ->
  prune_result exp ln threads s1 s2 fuel c samples m (Ok m') -> byte_complete (m_vocab m) -> byte_complete (m_vocab m').
Proof. intros exp ln threads s1 s2 fuel c m samples m' H1 H2 H. destruct (prune_shrunk H1 H2 H) as [Hs _]. now apply shrunk_byte_complete. Qed.
Print Assumptions C32_pruned.

(** Pruning a vocabulary that has all the bytes never reports an error: it returns a vocabulary, panics (over a number that is
    not normal) or goes on for ever. *)
Lemma prune_model s1 s2 exp ln threads c m samples v : prune_vocab_result exp ln threads s1 s2 c m samples (Err v) -> exists e, count_result threads m samples (Err e).
Proof.
  intros H. inversion H as [judged freqs HJ HC E| |judged e HJ HC|]; subst; [|eauto]. exfalso. unfold choose in E.
  assert (HB : forall {X Y} (x : res X) (k : X -> res Y), bind x k = Err v -> x = Err v \/ exists a, x = Ok a /\ k a = Err v) by (intros X Y [a|e0| |] k; simpl; intros Hx; [now right; eauto|injection Hx as ->; now left|discriminate|discriminate]).
  assert (HS : forall {X} s (key : X -> f64) l, sort_by_f64_desc s key l <> Err v) by (intros X s key l; destruct (sort_by_f64_desc_total s key l) as [(r & ->)|(-> & _)]; discriminate).
  assert (HI : forall {X} (l : list X) i, index l i <> Err v) by (intros X l i; unfold index; destruct (nth_error l i); discriminate).
  assert (HA : forall f a alts x, alt_logprob ln freqs f a alts x <> Err v).
  { intros f a alts. induction alts as [|i alts IH]; intros x; simpl; [discriminate|]. intros Hx. apply HB in Hx as [Hx|(y & _ & Hx)]; [now apply HI in Hx|now apply IH in Hx]. }
  assert (HSi : forall toks na ns id p cs, sift ln freqs judged na ns id toks p cs <> Err v).
  { induction toks as [|t toks IH]; intros na ns id p cs; cbn [sift]; [discriminate|]. destruct (st_keep t); [apply IH|]. intros Hx.
    apply HB in Hx as [Hx|(n & _ & Hx)]; [now apply HI in Hx|]. apply HB in Hx as [Hx|([al alts] & _ & Hx)]; [now apply HI in Hx|].
    destruct (_ && _); [now apply IH in Hx|]. destruct alts; [now apply IH in Hx|]. destruct (negb _); [|now apply IH in Hx]. apply HB in Hx as [Hx|(x & _ & Hx)].
    - unfold loss in Hx. apply HB in Hx as [Hx|(y & _ & Hx)]; [now apply HA in Hx|discriminate].
    - destruct (f_is_normal x); [now apply IH in Hx|discriminate]. }
  assert (HFi : forall cs size p, fill (m_vocab m) size cs p <> Err v).
  { induction cs as [|[i x] cs IH]; intros size p; cbn [fill]; [discriminate|]. destruct (_ =? _); [discriminate|]. intros Hx. apply HB in Hx as [Hx|(t & _ & Hx)]; [now apply HI in Hx|now apply IH in Hx]. }
  apply HB in E as [E|([p cs] & _ & E)]; [now apply HSi in E|]. apply HB in E as [E|(cs' & _ & E)]; [now apply HS in E|]. apply HB in E as [E|(f & _ & E)]; [now apply HFi in E|now apply HS in E].
Qed.
Theorem C36_outcomes : forall exp ln threads s1 s2 fuel c vocab samples r, valid_sorter s1 -> valid_sorter s2 -> 7 <= fuel ->
  fits vocab -> byte_complete vocab -> Forall Utf8 samples ->
  prune_result exp ln threads s1 s2 fuel c samples (model_from vocab) r -> (exists m', r = Ok m') \/ r = Panic.
Proof.
  intros exp ln threads s1 s2 fuel c vocab samples r H1 H2 Hfuel Hf Hb HU H. remember (model_from vocab) as m eqn:Em. revert vocab Em Hf Hb.
  assert (HE : forall n m r, em_result exp ln threads fuel c samples n m r -> forall vocab, m = model_from vocab -> (exists vocab', r = Ok (model_from vocab') /\ shrunk vocab vocab') \/ r = Panic).
  { induction 1 as [m0|n m0 freqs vocab0 r0 He Hm _ IH|n m0|n m0 freqs r0 He [[-> _]|[-> Hd]]]; intros vocab ->; auto.
    - left. exists vocab. split; [reflexivity|apply shrunk_refl].
    - apply m_step_shrunk in Hm. rewrite model_from_vocab in Hm. destruct (IH _ eq_refl) as [(v' & -> & Hs)|]; [|now right]. left. exists v'. split; [reflexivity|]. eapply shrunk_trans; eauto.
    - exfalso. apply e_step_length in He. destruct (@m_step_total ln fuel _ _ Hfuel He) as [(v & Hv)|Hv]; congruence. }
  induction H as [m Hs|m m1 vocab1 r Hs He Hv _ IH|m r _ He Hr|m m1|m m1 e Hs He Hv]; intros vocab -> Hf Hb; eauto.
  - destruct (HE _ _ _ He _ eq_refl) as [(v' & E & Hs')|]; [|discriminate]. injection E as ->. apply prune_vocab_shrunk in Hv; [|exact H1|exact H2]. rewrite model_from_vocab in Hv.
    assert (HS := shrunk_trans Hs' Hv). apply (IH vocab1 eq_refl); [eapply shrunk_fits; eauto|eapply shrunk_byte_complete; eauto].
  - destruct Hr as [->| ->]; [now right|]. destruct (HE _ _ _ He _ eq_refl) as [(v' & E & _)|]; discriminate.
  - exfalso. destruct (HE _ _ _ He _ eq_refl) as [(v' & E & Hs')|]; [|discriminate]. injection E as ->. apply prune_model in Hv as (e' & Hc).
    assert (Hf' := shrunk_fits Hs' Hf). assert (Hb' := shrunk_byte_complete Hs' Hb).
    destruct (C45_fails Hf' Hc) as [(f & ?)|(s & Hin & _ & Hn)]; [discriminate|]. rewrite Forall_forall in HU.
    destruct (@C32_byte_complete_encodes v' (fun _ => f0) s f0 Hf' Hb' (HU _ Hin)) as (ids & Hi). congruence.
Qed.
Print Assumptions C36_outcomes.

(** What a run is made of: turns while there are too many tokens, each with exactly [pc_em_subiters] EM steps followed by one pruning. *)
Lemma chain_one {X} (R : X -> X -> Prop) a : chain R [a] a a.
Proof. repeat split. intros [|i] x y _ H; [discriminate|destruct i; discriminate]. Qed.
Lemma chain_step {X} (R : X -> X -> Prop) a l b c : R a b -> chain R l b c -> chain R (a :: l) a c.
Proof.
  intros H (H1 & H2 & H3). split; [reflexivity|]. split.
  - destruct l as [|x l]; [discriminate|]. cbn [length Nat.sub nth_error] in *. rewrite Nat.sub_0_r in H2. exact H2.
  - intros [|i] x y Hx Hy; cbn [nth_error] in *; [injection Hx as ->; rewrite H1 in Hy; injection Hy as ->; exact H|eauto].
Qed.
Lemma chain_inv {X} (R : X -> X -> Prop) l a c : chain R l a c -> (l = [a] /\ a = c) \/ exists l' b, l = a :: l' /\ R a b /\ chain R l' b c.
Proof.
  intros (H1 & H2 & H3). destruct l as [|x [|b l]]; [discriminate| |].
  - left. cbn in *. split; congruence.
  - right. injection H1 as ->. exists (b :: l), b. split; [reflexivity|]. split; [apply (H3 0); reflexivity|]. split; [reflexivity|]. split.
    + cbn [length Nat.sub nth_error] in *. rewrite ?Nat.sub_0_r in *. exact H2.
    + intros i. apply (H3 (S i)).
Qed.
Lemma em_chain exp ln threads fuel c samples n m m' : em_result exp ln threads fuel c samples n m (Ok m') <->
  exists ems, length ems = S n /\ chain (fun x y => exists freqs v, e_step_result exp ln threads c x samples (Ok freqs) /\ m_step ln fuel x freqs = Ok v /\ y = model_from v) ems m m'.
Proof.
  split.
  - intros H. remember (Ok m') as r eqn:Er. revert Er. induction H as [m0|n m0 freqs vocab0 r0 He Hm _ IH|n m0|n m0 freqs r0 He [[-> _]|[-> Hd]]]; intros Er; try discriminate.
    + injection Er as ->. exists [m']. split; [reflexivity|apply chain_one].
    + destruct (IH Er) as (ems & HL & HC). exists (m0 :: ems). split; [simpl; congruence|]. eapply chain_step; [|exact HC]. eauto.
  - intros (ems & HL & HC). revert ems m HL HC. induction n as [|n IH]; intros ems m HL HC; apply chain_inv in HC as [(-> & ->)|(l' & b & -> & (freqs & v & He & Hm & ->) & HC)]; try discriminate; [constructor|destruct l'; [destruct HC; discriminate|discriminate]|].
    injection HL as HL. econstructor; eauto.
Qed.
Theorem C36_turns : forall exp ln threads s1 s2 fuel c samples m m', prune_result exp ln threads s1 s2 fuel c samples m (Ok m') <->
  length (m_vocab m') <= pc_vocab_size c /\ exists turns,
    chain (fun a b => pc_vocab_size c < length (m_vocab a) /\ exists ems m1 v,
      length ems = S (pc_em_subiters c) /\
      chain (fun x y => exists freqs v, e_step_result exp ln threads c x samples (Ok freqs) /\ m_step ln fuel x freqs = Ok v /\ y = model_from v) ems a m1 /\
      prune_vocab_result exp ln threads s1 s2 c m1 samples (Ok v) /\ b = model_from v) turns m m'.
Proof.
  intros exp ln threads s1 s2 fuel c samples m m'. split.
  - intros H. remember (Ok m') as r eqn:Er. revert Er. induction H as [m Hs|m m1 vocab1 r Hs He Hv _ IH|m r _ He Hr|m m1 Hs He Hv|m m1 e Hs He Hv]; intros Er; try discriminate.
    + injection Er as ->. split; [exact Hs|]. exists [m']. apply chain_one.
    + destruct (IH Er) as (Hl & turns & HC). split; [exact Hl|]. exists (m :: turns). eapply chain_step; [|exact HC]. split; [exact Hs|]. apply em_chain in He as (ems & HL & HE). exists ems, m1, vocab1. auto.
    + subst r. destruct Hr; discriminate.
  - intros (Hl & turns & HC). revert m HC. induction turns as [|x turns IH]; intros m HC; apply chain_inv in HC as [(E & ->)|(l' & b & E & (Hs & ems & m1 & v & HL & HE & HV & ->) & HC)]; try discriminate.
    + injection E as -> ->. now constructor.
    + injection E as -> ->. eapply prune_turn; [exact Hs|apply em_chain; eauto|exact HV|]. now apply IH.
Qed.
Print Assumptions C36_turns.

(** It does go on for ever: when all tokens are protected, there are too many, and no EM steps are asked for. *)
Lemma sift_keep ln freqs judged na ns toks : Forall (fun t => st_keep t = true) toks -> forall id p cs, sift ln freqs judged na ns id toks p cs = Ok (p ++ toks, cs).
Proof.
  induction 1 as [|t toks Ht _ IH]; intros id p cs; cbn [sift]; [now rewrite app_nil_r|]. rewrite Ht, IH, <- app_assoc. reflexivity.
Qed.
Theorem C36_hangs : forall exp ln threads s1 s2 fuel c vocab samples, valid_sorter s1 -> valid_sorter s2 -> pc_em_subiters c = 0 ->
  room vocab -> byte_complete vocab -> Forall Utf8 samples -> Forall (fun t => st_keep t = true /\ f_is_nan (st_score t) = false) vocab ->
  pc_vocab_size c < length vocab ->
  (* each turn has a result *)
  (exists v, prune_vocab_result exp ln threads s1 s2 c (model_from vocab) samples (Ok v)) /\
  (* but the whole has none, not even a panic *)
  forall r, ~ prune_result exp ln threads s1 s2 fuel c samples (model_from vocab) r.
Proof.
  intros exp ln threads s1 s2 fuel c vocab samples H1 H2 Hem HR Hb HU HK Hlt.
  assert (HT : forall vocab r, room vocab -> byte_complete vocab -> Forall (fun t => st_keep t = true /\ f_is_nan (st_score t) = false) vocab ->
    prune_vocab_result exp ln threads s1 s2 c (model_from vocab) samples r -> exists v, r = Ok v /\ Permutation v vocab).
  { clear vocab HR Hb HK Hlt. intros vocab r HR Hb HK H. assert (HK1 : Forall (fun t => st_keep t = true) vocab) by (eapply Forall_impl; [|exact HK]; simpl; tauto).
    assert (HOk : exists v, r = Ok v).
    { inversion H as [judged freqs HJ HC E|HJ|judged e HJ HC|judged HJ HC]; subst.
      - unfold choose. rewrite model_from_vocab, (sift_keep _ _ _ _ _ HK1). cbn [bind app]. cbn [sort_by_f64_desc length Nat.ltb Nat.leb bind fill].
        change (sort_by_f64_desc s1 (fun x : nat * f64 => snd x) []) with (@Ok (list (nat * f64)) []). cbn [bind fill].
        destruct (sort_by_f64_desc_total s2 st_score vocab) as [(r & ->)|(_ & _ & t & Ht & Hn)]; [eauto|]. rewrite Forall_forall in HK. apply HK in Ht as [_ Ht]. congruence.
      - rewrite model_from_vocab in HJ. destruct (judge_spec HR HJ (Pool_with_capacity 32 16)) as (js & E & _). discriminate.
      - exfalso. destruct (C45_fails (proj1 HR) HC) as [(f & ?)|(s & Hin & _ & Hn)]; [discriminate|]. rewrite Forall_forall in HU.
        destruct (@C32_byte_complete_encodes vocab (fun _ => f0) s f0 (proj1 HR) Hb (HU _ Hin)) as (ids & Hi). congruence.
      - exfalso. destruct (C45_fails (proj1 HR) HC) as [(f & ?)|(s & Hin & ? & _)]; discriminate. }
    destruct HOk as (v & ->). exists v. split; [reflexivity|]. destruct (C35_removes H1 H2 HR H) as (_ & removed & HP & HF).
    destruct removed as [|t removed]; [now rewrite app_nil_r in HP|]. inversion HF as [|? ? Hf _]; subst. rewrite Forall_forall in HK1. assert (Ht : st_keep t = true); [|congruence].
    apply HK1, (Permutation_in _ HP), in_or_app. right. now left. }
  split.
  - destruct (judge_exists exp ln HR vocab lattice_new [] (Pool_with_capacity 32 16)) as (js & HJ). destruct (@C45_result_exists threads vocab samples (proj1 HR)) as (r & HC).
    assert (HCo : exists freqs, r = Ok freqs).
    { destruct (C45_fails (proj1 HR) HC) as [H|(s & Hin & _ & Hn)]; [exact H|]. exfalso. rewrite Forall_forall in HU.
      destruct (@C32_byte_complete_encodes vocab (fun _ => f0) s f0 (proj1 HR) Hb (HU _ Hin)) as (ids & Hi). congruence. }
    destruct HCo as (freqs & ->). assert (HX : prune_vocab_result exp ln threads s1 s2 c (model_from vocab) samples (choose ln s1 s2 c (model_from vocab) (length samples) js freqs)).
    { apply prune_vocab_chosen; [|exact HC]. rewrite model_from_vocab. exact HJ. }
    destruct (HT _ _ HR Hb HK HX) as (v & E & _). rewrite E in HX. eauto.
  - intros r H. remember (model_from vocab) as m eqn:Em. revert vocab Em HR Hb HK Hlt.
    assert (HE : forall m r, em_result exp ln threads fuel c samples (pc_em_subiters c) m r -> r = Ok m) by (rewrite Hem; intros m0 r0 H0; now inversion H0).
    induction H as [m Hs|m m1 vocab1 r Hs He Hv _ IH|m r _ He Hr|m m1 Hs He Hv|m m1 e Hs He Hv]; intros vocab -> HR Hb HK Hlt.
    + unfold vocab_size in Hs. rewrite model_from_vocab in Hs. lia.
    + apply HE in He. injection He as ->. destruct (HT _ _ HR Hb HK Hv) as (v & E & HP). injection E as ->. assert (HSh : shrunk vocab v) by (exists []; rewrite app_nil_r; split; [now apply Permutation_map|constructor]).
      apply (IH v eq_refl).
      * eapply shrunk_room; eauto.
      * eapply shrunk_byte_complete; eauto.
      * apply Forall_forall. intros t Ht. rewrite Forall_forall in HK. apply HK, (Permutation_in _ HP Ht).
      * now rewrite (Permutation_length HP).
    + apply HE in He. subst r. destruct Hr; discriminate.
    + apply HE in He. injection He as ->. destruct (HT _ _ HR Hb HK Hv) as (v & E & _). discriminate.
    + apply HE in He. injection He as ->. destruct (HT _ _ HR Hb HK Hv) as (v & E & _). discriminate.
Qed.
Print Assumptions C36_hangs.

(** ** Examples *)
(** The vocabulary "a", "b", "ab", none of them protected, to be pruned to two tokens. *)
Definition exp_vocab : list scored_token := [ST [x61] f0 false; ST [x62] f0 false; ST [x61; x62] f0 false].
Definition exp_cfg : prune_cfg := PruneCfg 2 fhalf 0 f0.
Lemma exp_room : room exp_vocab.
Proof. split; [split; [reflexivity|repeat constructor]|reflexivity]. Qed.
Lemma exp_cut_cons id ids s : Cut exp_vocab (id :: ids) s ->
  exists r, Cut exp_vocab ids r /\ (id = 0%N /\ s = x61 :: r \/ id = 1%N /\ s = x62 :: r \/ id = 2%N /\ s = x61 :: x62 :: r).
Proof.
  intros H. inversion H as [|i t ids0 r [Ht _] _ HC E1 E2]. subst. exists r. split; [exact HC|]. unfold token_at in Ht. rewrite <- (N2Nat.id id). revert Ht. generalize (N.to_nat id). intros n Hn.
  destruct n as [|[|[|n]]]; simpl in Hn; try (injection Hn as <-); simpl; auto. destruct n; discriminate.
Qed.
Lemma exp_cut_nil ids : Cut exp_vocab ids [] -> ids = [].
Proof. destruct ids as [|id ids]; [reflexivity|]. intros H. apply exp_cut_cons in H as (r & _ & [[_ ?]|[[_ ?]|[_ ?]]]); discriminate. Qed.
Lemma exp_cut_b ids : Cut exp_vocab ids [x62] -> ids = [1%N].
Proof.
  destruct ids as [|id ids]; [intros H; inversion H|]. intros H. apply exp_cut_cons in H as (r & HC & [[_ ?]|[[-> Hr]|[_ ?]]]); try discriminate. injection Hr as <-. now rewrite (exp_cut_nil HC).
Qed.
Lemma exp_cut_ab ids : Cut exp_vocab ids [x61; x62] -> ids = [0%N; 1%N] \/ ids = [2%N].
Proof.
  destruct ids as [|id ids]; [intros H; inversion H|]. intros H. apply exp_cut_cons in H as (r & HC & [[-> Hr]|[[_ ?]|[-> Hr]]]); try discriminate; injection Hr as <-.
  - left. now rewrite (exp_cut_b HC).
  - right. now rewrite (exp_cut_nil HC).
Qed.
Lemma exp_few : few_cuts exp_vocab [x61; x62].
Proof.
  intros L HD HF. assert (HI : incl L [[]; [1%N]; [0%N; 1%N]; [2%N]]).
  { intros ids Hi. rewrite Forall_forall in HF. destruct (HF _ Hi) as (a & b & E & HC). destruct a as [|x [|y a]].
    - simpl in E. subst b. apply exp_cut_ab in HC as [->| ->]; simpl; auto.
    - injection E as <- <-. apply exp_cut_b in HC. subst. simpl. auto.
    - injection E as <- <- E. destruct a as [|z a]; [|discriminate]. simpl in E. subst b. apply exp_cut_nil in HC. subst. simpl. auto. }
  apply (NoDup_incl_length HD) in HI. cbn [length] in HI. lia.
Qed.
Lemma exp_spelled : Cut exp_vocab [0%N; 1%N] [x61; x62].
Proof.
  assert (HX : forall id t, token_at exp_vocab id t -> latest exp_vocab id t).
  { intros id t Ht. split; [exact Ht|]. intros id' t' Hlt Ht' E. unfold token_at in *. assert (Hneq : N.to_nat id <> N.to_nat id') by lia. revert Ht Ht' Hneq. generalize (N.to_nat id), (N.to_nat id').
    intros [|[|[|n]]] [|[|[|n']]] Ht Ht' Hneq; simpl in Ht, Ht'; try (injection Ht as <-); try (injection Ht' as <-); try discriminate; try congruence; try (destruct n; discriminate); try (destruct n'; discriminate). }
  apply (@Cut_cons exp_vocab 0%N (ST [x61] f0 false) [1%N] [x62]); [now apply HX|discriminate|].
  apply (@Cut_cons exp_vocab 1%N (ST [x62] f0 false) [] []); [now apply HX|discriminate|constructor].
Qed.
(** "ab" is removed, as no sample has it. *)
Example exp_removed : forall exp ln threads s1 s2 v, valid_sorter s1 -> valid_sorter s2 ->
  prune_vocab_result exp ln threads s1 s2 exp_cfg (model_from exp_vocab) [] (Ok v) -> ~ In (ST [x61; x62] f0 false) v.
Proof.
  intros exp ln threads s1 s2 v H1 H2 H. apply (@C35_unused_removed exp ln threads s1 s2 exp_cfg exp_vocab [] v _ 2%N H1 H2 exp_room); auto; try discriminate.
  - repeat constructor; simpl; intuition discriminate.
  - reflexivity.
  - exists [0%N; 1%N]. split; [simpl; lia|exact exp_spelled].
  - exact exp_few.
Qed.
(** And the pruning ends with a vocabulary of at most two tokens. *)
Example exp_pruned : forall exp ln threads s1 s2 fuel, valid_sorter s1 -> valid_sorter s2 ->
  exists m', prune_result exp ln threads s1 s2 fuel exp_cfg [] (model_from exp_vocab) (Ok m').
Proof.
  intros exp ln threads s1 s2 fuel H1 H2. destruct (judge_exists exp ln exp_room exp_vocab lattice_new [] (Pool_with_capacity 32 16)) as (js & HJ).
  destruct (@C45_result_exists threads exp_vocab [] (proj1 exp_room)) as (r & HC).
  assert (HCo : r = Ok [0; 0; 0]).
  { destruct (C45_fails (proj1 exp_room) HC) as [(f & ->)|(s & [] & _)]. destruct (C45_token_counts HC) as (idss & HE & HL & HN). inversion HE; subst. rewrite model_from_vocab in *. f_equal.
    apply nth_ext with (d := 0) (d' := 0); [exact HL|]. intros i Hi. rewrite HL in Hi. specialize (HN (N.of_nat i)). rewrite Nat2N.id in HN. specialize (HN Hi). rewrite (nth_error_nth _ _ _ HN). simpl in Hi. destruct i as [|[|[|i]]]; auto. simpl. destruct i; reflexivity. }
  subst r. destruct (judge_spec exp_room HJ (Pool_with_capacity 32 16)) as (js' & E & HF). injection E as ->. cbn [app] in HJ.
  assert (HX : exists v, choose ln s1 s2 exp_cfg (model_from exp_vocab) 0 js' [0; 0; 0] = Ok v).
  { unfold choose. rewrite model_from_vocab. assert (HP : exists p, sift ln [0; 0; 0] js' (vocab_size (model_from exp_vocab)) 0 0 exp_vocab [] [] = Ok (p, []) /\ Forall (fun t => st_score t = f0) p).
    { inversion HF as [|? [a1 l1] ? ? _ HF1]; subst. inversion HF1 as [|? [a2 l2] ? ? _ HF2]; subst. inversion HF2 as [|? [a3 l3] ? ? _ HF3]; subst. inversion HF3; subst.
      destruct a1, l1, a2, l2, a3, l3; (eexists; split; [reflexivity|repeat constructor]). }
    destruct HP as (p & -> & Hp). cbn [bind]. change (sort_by_f64_desc s1 (fun x : nat * f64 => snd x) []) with (@Ok (list (nat * f64)) []). cbn [bind fill].
    destruct (sort_by_f64_desc_total s2 st_score p) as [(r & ->)|(_ & _ & t & Ht & Hn)]; [eauto|]. rewrite Forall_forall in Hp. rewrite (Hp _ Ht) in Hn. discriminate. }
  destruct HX as (v & Hv). assert (HR : prune_vocab_result exp ln threads s1 s2 exp_cfg (model_from exp_vocab) [] (Ok v)).
  { rewrite <- Hv. change 0 with (@length bytes []). apply prune_vocab_chosen; [|exact HC]. rewrite model_from_vocab. exact HJ. }
  exists (model_from v). apply prune_turn with (m1 := model_from exp_vocab) (vocab := v); [rewrite ?model_from_vocab; unfold vocab_size; rewrite model_from_vocab; simpl; lia|constructor|exact HR|].
  apply prune_done. unfold vocab_size. rewrite model_from_vocab. assert (Hno := exp_removed H1 H2 HR). destruct (C35_removes H1 H2 exp_room HR) as (_ & removed & HP & _).
  assert (HL := Permutation_length HP). rewrite app_length in HL. cbn [length exp_vocab] in HL. destruct removed as [|t removed]; [exfalso|cbn [length] in HL; simpl; lia].
  apply Hno. rewrite app_nil_r in HP. apply (Permutation_in _ (Permutation_sym HP)). simpl. auto.
Qed.
(** An M-step: of the frequencies 1, 0.4 and 0 the second is too low, and the third token is protected. *)
Example exp_m_step : match m_step (fun _ => f0) 7 (model_from [ST [x61] f0 false; ST [x62] f0 false; ST [x63] f0 true]) [f1; fdiv (f64_of_Z 4) (f64_of_Z 10); f0] with
  | Ok v => map (fun t => (st_value t, st_keep t)) v = [([x61], false); ([x63], true)]
  | _ => False
  end.
Proof. vm_compute. reflexivity. Qed.
(** Counts: with equal scores the longer token is used in "ab". *)
Example exp_counts : count_samples (model_from exp_vocab) [[x61; x62]; [x62; x61]] [0; 0; 0] = Ok [1; 1; 1].
Proof. vm_compute. reflexivity. Qed.
