(** Properties of merging (src/merge.rs). *)
From Verif Require Import Base BaseProofs F64 Utf8 Trie Model ModelProofs SpecModel EncodeProofs Sort SortProofs Par ParProofs Merge MergeProofs PropModel.
Set Implicit Arguments.

(** [tok] is a permitted merge of neighbours [a], [b] in the encoding of a sample with the vocabulary [vocab]. *)
Definition MergeOf (c : merge_cfg) (samples : list bytes) (vocab : list scored_token) (tok : scored_token) : Prop :=
  exists sample ids l a b l' ta tb, In sample samples /\ encode (model_from vocab) no_rnd sample f0 = Ok ids /\
    ids = l ++ a :: b :: l' /\ token_at vocab a ta /\ token_at vocab b tb /\
    st_value tok = st_value ta ++ st_value tb /\ st_score tok = fmul (fadd (st_score ta) (st_score tb)) (mc_scale_factor c) /\
    st_keep tok = false /\ length (st_value tok) <= mc_max_token_length c /\ mc_allow c (from_utf8_lossy (st_value tok)) = true.
(** The new tokens still have 32-bit ids and lengths. *)
Definition merge_fits (c : merge_cfg) (vocab : list scored_token) : Prop :=
  fits vocab /\ (N.of_nat (length vocab + mc_num_merges c) < 2 ^ 32)%N /\ (N.of_nat (mc_max_token_length c) < 2 ^ 32)%N.

(** ** C27 *)
Theorem C27_merge_appends : forall s threads c vocab samples m', valid_sorter s -> merge_fits c vocab ->
  merge_result s threads c (model_from vocab) samples (Ok m') ->
  exists added, m' = model_from (vocab ++ added) /\ m_vocab m' = vocab ++ added /\ length added <= mc_num_merges c /\
    forall i tok, nth_error added i = Some tok -> exists j, j <= i /\ MergeOf c samples (vocab ++ firstn j added) tok.
Proof.
  intros s threads c vocab samples m' Hs (HV & Hn & Hl) H. unfold merge_result, vocab_size in H. rewrite model_from_vocab in H.
  destruct (loop_spec Hs HV Hn Hl H) as [E|(added & E & HL & HH & _)]; [discriminate|]. injection E as ->. exists added. rewrite model_from_vocab. auto.
Qed.
Print Assumptions C27_merge_appends.
(** A panic means that a sample could not be encoded. *)
Theorem C27_merge_panics : forall s threads c vocab samples, valid_sorter s -> merge_fits c vocab ->
  merge_result s threads c (model_from vocab) samples Panic ->
  exists added sample, length added <= mc_num_merges c /\ In sample samples /\ forall ids, encode (model_from (vocab ++ added)) no_rnd sample f0 <> Ok ids.
Proof.
  intros s threads c vocab samples Hs (HV & Hn & Hl) H. unfold merge_result, vocab_size in H. rewrite model_from_vocab in H.
  inversion H as [| |k m' Hk Hlt Hr]; subst. destruct (rounds_inv Hs HV Hn Hl Hk) as (added & -> & HL & HH & _).
  destruct (round_spec Hs (history_fits HV Hn Hl HH HL) Hr) as [[_ (sample & Hin & Hno)]|(? & ? & ? & ? & ? & E)]; [|discriminate]. eauto.
Qed.
(** Merging the tokens of a pair of ids, and whether that is permitted. *)
Definition merge_tokens (c : merge_cfg) (vocab : list scored_token) (p : N * N) : scored_token :=
  let tok id := nth (N.to_nat id) vocab (ST [] f0 false) in
  ST (st_value (tok (fst p)) ++ st_value (tok (snd p))) (fmul (fadd (st_score (tok (fst p))) (st_score (tok (snd p)))) (mc_scale_factor c)) false.
Definition permitted (c : merge_cfg) (tok : scored_token) : bool :=
  (length (st_value tok) <=? mc_max_token_length c) && mc_allow c (from_utf8_lossy (st_value tok)).
(** What one round does, exactly: the neighbours in the encodings, the most frequent first, are merged as far as permitted. *)
Theorem C27_round : forall s threads c vocab samples start m' left, valid_sorter s -> fits vocab ->
  merge_round s threads c samples start (model_from vocab) (Ok (m', left)) ->
  let merges := Nat.min (mc_step c) (mc_num_merges c - (length vocab - start)) in
  exists encodings pairs added,
    Forall2 (fun sample ids => encode (model_from vocab) no_rnd sample f0 = Ok ids) samples encodings /\
    (* the pairs of neighbours, by falling frequency *)
    NoDup (map fst pairs) /\
    (forall a b n, In ((a, b), n) pairs <-> n = count_occ pair_dec (flat_map pairs_in encodings) (a, b) /\ exists ids l l', In ids encodings /\ ids = l ++ a :: b :: l') /\
    StronglySorted (fun p q => snd q <= snd p) pairs /\
    (* the first permitted ones are merged *)
    added = firstn merges (filter (permitted c) (map (merge_tokens c vocab) (map fst pairs))) /\
    m' = model_from (vocab ++ added) /\ left = merges - length added.
Proof.
  intros s threads c vocab samples start m' left Hs HV H merges. destruct (round_spec Hs HV H) as [[E _]|(encodings & pairs & HE & (HD & HI & HS) & HP & E)]; [discriminate|].
  cbn zeta in E. injection E as E1 E2. exists encodings, pairs. eexists.
  assert (EP : filter (fun t => negb (refused c t)) (map (merge_of c vocab) pairs) = filter (permitted c) (map (merge_tokens c vocab) (map fst pairs))).
  { rewrite map_map. apply filter_ext. intros t. unfold refused, permitted, st_len. now rewrite Bool.negb_orb, Bool.negb_involutive, <- Nat.leb_antisym. }
  rewrite EP in E1, E2. repeat match goal with |- _ /\ _ => split end; try reflexivity; try eassumption.
  intros a b n. rewrite HI. split; intros [E H0]; (split; [exact E|]).
  - apply in_flat_map in H0 as (ids & Hin & H0). apply pairs_in_adjacent in H0 as (l & l' & ->). eauto 6.
  - destruct H0 as (ids & l & l' & Hin & E'). apply in_flat_map. exists ids. split; [exact Hin|]. apply pairs_in_adjacent. eauto.
Qed.
Print Assumptions C27_round.

(** ** C28 *)
(** No neighbours in the encodings may be merged. *)
Definition Blocked (c : merge_cfg) (samples : list bytes) (vocab : list scored_token) : Prop :=
  exists encodings, Forall2 (fun sample ids => encode (model_from vocab) no_rnd sample f0 = Ok ids) samples encodings /\
    forall a b ta tb, In (a, b) (flat_map pairs_in encodings) -> token_at vocab a ta -> token_at vocab b tb ->
      mc_max_token_length c < length (st_value ta ++ st_value tb) \/ mc_allow c (from_utf8_lossy (st_value ta ++ st_value tb)) = false.
(** [vocab'], reached from [vocab], is blocked with some, but less than [step] merges left to do. *)
Definition Stuck (c : merge_cfg) (samples : list bytes) (vocab vocab' : list scored_token) : Prop :=
  Blocked c samples vocab' /\ 0 < length vocab + mc_num_merges c - length vocab' < mc_step c.

(** Why the loop ended: all merges were done, or at least [step] were left and none was possible. *)
Theorem C28_result : forall s threads c vocab samples m', valid_sorter s -> merge_fits c vocab -> 0 < mc_step c ->
  merge_result s threads c (model_from vocab) samples (Ok m') ->
  exists added, m' = model_from (vocab ++ added) /\
    (length added = mc_num_merges c \/ mc_step c <= mc_num_merges c - length added /\ Blocked c samples (vocab ++ added)).
Proof.
  intros s threads c vocab samples m' Hs (HV & Hn & Hl) H0 H. unfold merge_result, vocab_size in H. rewrite model_from_vocab in H.
  destruct (loop_spec Hs HV Hn Hl H) as [E|(added & E & HL & HH & HE)]; [discriminate|]. injection E as ->. exists added. split; [reflexivity|].
  destruct HE as [HE|[HE HB]]; [now left|right]. split; [exact HE|apply HB; lia].
Qed.
Print Assumptions C28_result.
(** Every round adds a token, until the loop ends or is stuck: there are at most [num_merges] others. *)
Theorem C28_terminates : forall s threads c vocab samples k m', valid_sorter s -> merge_fits c vocab ->
  merge_rounds s threads c samples (length vocab) k (model_from vocab) m' ->
  k <= mc_num_merges c \/ exists added, m' = model_from (vocab ++ added) /\ Stuck c samples vocab (vocab ++ added).
Proof.
  intros s threads c vocab samples k m' Hs (HV & Hn & Hl) H. destruct (rounds_inv Hs HV Hn Hl H) as (added & -> & HL & HH & [HK|HK]); [left; lia|right; eauto].
Qed.
Print Assumptions C28_terminates.
(** Whatever rounds were done, either the loop can end or another round can follow. *)
Theorem C28_progress : forall s threads c vocab samples k m', valid_sorter s -> merge_fits c vocab ->
  merge_rounds s threads c samples (length vocab) k (model_from vocab) m' ->
  (exists r, merge_result s threads c (model_from vocab) samples r) \/
  exists m'', merge_rounds s threads c samples (length vocab) (S k) (model_from vocab) m''.
Proof.
  intros s threads c vocab samples k m' Hs (HV & Hn & Hl) H. unfold merge_result, vocab_size. rewrite model_from_vocab. eapply loop_progress; eassumption.
Qed.
(** So there is a result, unless the loop can get stuck. *)
Theorem C28_ends : forall s threads c vocab samples, valid_sorter s -> merge_fits c vocab ->
  (exists r, merge_result s threads c (model_from vocab) samples r) \/
  exists k added, merge_rounds s threads c samples (length vocab) k (model_from vocab) (model_from (vocab ++ added)) /\ Stuck c samples vocab (vocab ++ added).
Proof.
  intros s threads c vocab samples Hs HF.
  assert (H : forall k, (exists r, merge_result s threads c (model_from vocab) samples r) \/
    exists m', merge_rounds s threads c samples (length vocab) k (model_from vocab) m').
  { induction k as [|k [IH|[m' IH]]]; [right; eexists; constructor|now left|]. eapply C28_progress; eassumption. }
  destruct (H (S (mc_num_merges c))) as [H'|[m' H']]; [now left|right].
  destruct (C28_terminates Hs HF H') as [HK|(added & -> & HS)]; [lia|eauto].
Qed.
Print Assumptions C28_ends.
(** A stuck loop goes round forever: always another round, always to the same model, never a result. *)
Theorem C28_stuck_forever : forall s threads c vocab samples k added, valid_sorter s -> merge_fits c vocab ->
  let m' := model_from (vocab ++ added) in
  merge_rounds s threads c samples (length vocab) k (model_from vocab) m' -> Stuck c samples vocab (vocab ++ added) ->
  (forall j, merge_rounds s threads c samples (length vocab) (k + j) (model_from vocab) m') /\
  (forall r, merge_round s threads c samples (length vocab) m' r -> exists left, r = Ok (m', left) /\ left <> mc_step c) /\
  (forall r, ~ merge_loop s threads c samples (length vocab) m' r).
Proof.
  intros s threads c vocab samples k added Hs (HV & Hn & Hl) m' H HS. destruct (rounds_inv Hs HV Hn Hl H) as (added' & E & HL & HH & _).
  assert (HF : fits (vocab ++ added)).
  { assert (E' := f_equal m_vocab E). unfold m' in E'. rewrite !model_from_vocab in E'. apply app_inv_head in E'. subst added'. now apply (history_fits HV Hn Hl HH HL). }
  repeat split.
  - intros j. eapply rounds_trans; [exact H|]. now apply stuck_forever.
  - intros r. now apply round_stuck.
  - intros r. now apply stuck_no_result.
Qed.
Print Assumptions C28_stuck_forever.

(** ** Examples *)
(** "a" and "b", any merge allowed; "ab" has a low score. *)
Definition ex_abs : list scored_token := [ST [x61] (f64_of_Z (-1)) false; ST [x62] (f64_of_Z (-1)) false; ST [x61; x62] (f64_of_Z (-5)) true].
Definition ex_cfg (max_len : nat) : merge_cfg := MergeCfg (fun _ => true) 1 2 (f64_of_Z 1) max_len.
Lemma ex_merge_fits n : n < 100 -> merge_fits (ex_cfg n) ex_abs.
Proof. intros H. repeat split; simpl; try lia. repeat constructor; vm_compute; reflexivity. Qed.
Definition ex_sample : list bytes := [[x61; x62]].
Lemma ex_encodes : encode (model_from ex_abs) no_rnd [x61; x62] f0 = Ok [0; 1]%N.
Proof. vm_compute. reflexivity. Qed.
Definition ex_new : scored_token := merged_token (ex_cfg 9) (ST [x61] (f64_of_Z (-1)) false) (ST [x62] (f64_of_Z (-1)) false).
Lemma ex_round n : merge_round insertion_sort 8 (ex_cfg n) ex_sample 3 (model_from ex_abs) (merge_scan (ex_cfg n) [((0, 1)%N, 1)] (model_from (ex_abs ++ [])) 1).
Proof.
  refine (@round_ends insertion_sort 8 (ex_cfg n) ex_sample 3 (model_from ex_abs) [[0; 1]%N] [[((0, 1)%N, 1)]] [[((0, 1)%N, 1)]] [((0, 1)%N, 1)] _ _ _ _); try reflexivity.
  - constructor; [exact ex_encodes|constructor].
  - repeat constructor.
Qed.
Lemma ex_merged : merge_result insertion_sort 8 (ex_cfg 9) (model_from ex_abs) ex_sample (Ok (model_from (ex_abs ++ [ex_new]))).
Proof.
  assert (H := ex_round 9). rewrite (merge_scan_spec (ex_cfg 9) (V := ex_abs)) in H by (repeat constructor).
  unfold merge_result; eapply loop_done; [eapply rounds_more; [apply rounds_none| |exact H|]|]; unfold vocab_size; rewrite ?model_from_vocab; simpl; lia.
Qed.
Example C27_example : exists m', merge_result insertion_sort 8 (ex_cfg 9) (model_from ex_abs) ex_sample (Ok m') /\
  map st_value (m_vocab m') = [[x61]; [x62]; [x61; x62]; [x61; x62]].
Proof. eexists. split; [exact ex_merged|]. now rewrite model_from_vocab. Qed.
(** Tokens of one byte only: nothing can be merged, and one merge is left, less than the step 2. *)
Example C28_example : Stuck (ex_cfg 1) ex_sample ex_abs ex_abs.
Proof.
  split; [|simpl; lia]. exists [[0; 1]%N]. split; [constructor; [exact ex_encodes|constructor]|]. intros a b ta tb [E|[]]. injection E as <- <-.
  intros Ha Hb. injection Ha as <-. injection Hb as <-. left. simpl. lia.
Qed.
Theorem C28_merge_may_hang : exists c vocab samples, merge_fits c vocab /\ 0 < mc_num_merges c /\
  forall s threads r, valid_sorter s -> ~ merge_result s threads c (model_from vocab) samples r.
Proof.
  exists (ex_cfg 1), ex_abs, ex_sample. split; [apply ex_merge_fits; lia|]. split; [simpl; lia|]. intros s threads r Hs H. unfold merge_result, vocab_size in H. rewrite model_from_vocab in H.
  assert (HS := C28_example). rewrite <- (app_nil_r ex_abs) in HS at 2. assert (HF : merge_fits (ex_cfg 1) ex_abs) by (apply ex_merge_fits; lia).
  assert (HR : merge_rounds s threads (ex_cfg 1) ex_sample (length ex_abs) 0 (model_from ex_abs) (model_from (ex_abs ++ []))) by (rewrite app_nil_r; constructor).
  destruct (C28_stuck_forever _ Hs HF HR HS) as (_ & _ & HN).
  apply (HN r). now rewrite app_nil_r.
Qed.
Print Assumptions C28_merge_may_hang.

(** ** C29 *)
Theorem C29_merge_may_duplicate : exists c vocab samples m' id id' t t', merge_fits c vocab /\ distinct_values vocab /\
  merge_result insertion_sort 8 c (model_from vocab) samples (Ok m') /\
  token_at (m_vocab m') id t /\ token_at (m_vocab m') id' t' /\ (id < id')%N /\ st_value t = st_value t' /\
  (* the older one had priority to be kept *) st_keep t = true /\ st_keep t' = false.
Proof.
  exists (ex_cfg 9), ex_abs, ex_sample, (model_from (ex_abs ++ [ex_new])), 2%N, 3%N. eexists. eexists.
  split; [apply ex_merge_fits; lia|]. split; [|split; [exact ex_merged|]].
  - repeat constructor; simpl; intuition discriminate.
  - rewrite model_from_vocab. repeat split.
Qed.
Print Assumptions C29_merge_may_duplicate.
(** After such a merge the older token is never produced again, whatever is encoded. *)
Theorem C29_older_never_produced : forall s threads c vocab samples m' id id' t t', valid_sorter s -> merge_fits c vocab ->
  merge_result s threads c (model_from vocab) samples (Ok m') ->
  token_at (m_vocab m') id t -> token_at (m_vocab m') id' t' -> (id < id')%N -> st_value t = st_value t' ->
  forall rnd text dropout ids, encode m' rnd text dropout = Ok ids -> ~ In id ids.
Proof.
  intros s threads c vocab samples m' id id' t t' Hs (HV & Hn & Hl) H Ht Ht' Hlt Hv rnd text dropout ids HE Hin. unfold merge_result, vocab_size in H. rewrite model_from_vocab in H.
  destruct (loop_spec Hs HV Hn Hl H) as [E|(added & E & HL & HH & _)]; [discriminate|]. injection E as ->. rewrite model_from_vocab in *.
  assert (HC := Cut_latest (encode_sound (history_fits HV Hn Hl HH HL) _ _ _ HE)). rewrite Forall_forall in HC. destruct (HC _ Hin) as (t0 & H0 & Hlast).
  assert (t0 = t) by (unfold token_at in *; congruence). subst t0. apply (Hlast id' t' Hlt Ht'). now symmetry.
Qed.
Print Assumptions C29_older_never_produced.
