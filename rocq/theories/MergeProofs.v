(** Facts about merging. *)
From Verif Require Import Base BaseProofs F64 Utf8 Trie Model ModelProofs SpecModel EncodeProofs Sort SortProofs Par ParProofs Merge.
Set Implicit Arguments.

Lemma pair_eqb_spec p q : reflect (p = q) (pair_eqb p q).
Proof.
  destruct p as [a b], q as [a' b']. unfold pair_eqb. simpl. destruct (N.eqb_spec a a') as [->|], (N.eqb_spec b b') as [->|]; constructor; congruence.
Qed.
Definition pair_dec : forall p q : N * N, {p = q} + {p <> q}.
Proof. decide equality; apply N.eq_dec. Defined.

(** ** The counts *)
Lemma chunk_pairs_eq chunk : chunk_pairs chunk = add_counts pair_eqb [] (map (fun p => (p, 1)) (flat_map pairs_in chunk)).
Proof. unfold chunk_pairs. rewrite (fold_flat_map (fun m pair => add_count pair_eqb m (pair, 1))). apply (fold_map (add_count pair_eqb) (fun p => (p, 1))). Qed.

Lemma concat_perm {A} (l l' : list (list A)) : Permutation l l' -> Permutation (concat l) (concat l').
Proof. induction 1; simpl; [reflexivity|now apply Permutation_app_head| |etransitivity; eassumption]. rewrite !app_assoc. apply Permutation_app_tail, Permutation_app_comm. Qed.

Lemma chunks_total p chs us : Forall2 (fun chunk us => Permutation (chunk_pairs chunk) us) chs us ->
  total pair_eqb p (concat us) = count_occ pair_dec (flat_map pairs_in (concat chs)) p.
Proof.
  induction 1 as [|ch u chs us P _ IH]; [reflexivity|]. cbn [concat]. rewrite flat_map_app, count_occ_app, total_app, IH.
  f_equal. rewrite <- (total_perm _ p P), chunk_pairs_eq, (total_adds _ pair_eqb_spec). apply total_ones, pair_eqb_spec.
Qed.
Lemma chunks_keys p chs us : Forall2 (fun chunk us => Permutation (chunk_pairs chunk) us) chs us ->
  In p (map fst (concat us)) <-> In p (flat_map pairs_in (concat chs)).
Proof.
  induction 1 as [|ch u chs us P _ IH]; [reflexivity|]. cbn [concat]. rewrite flat_map_app, map_app, !in_app_iff, IH.
  assert (H : In p (map fst u) <-> In p (map fst (chunk_pairs ch))) by (split; apply Permutation_in, Permutation_map; auto using Permutation_sym).
  rewrite H, chunk_pairs_eq. destruct (add_counts_keys _ pair_eqb_spec (map (fun p => (p, 1)) (flat_map pairs_in ch)) [] (NoDup_nil _)) as [_ HK].
  rewrite HK, map_map, map_id. simpl. tauto.
Qed.

Section Counts.
  Variables (encodings : list (list N)) (c : nat) (updates order : list (list ((N * N) * nat))) (entries : list ((N * N) * nat)).
  Hypothesis Hc : 1 <= c.
  Hypothesis HF : Forall2 (fun chunk us => Permutation (chunk_pairs chunk) us) (chunks c encodings) updates.
  Hypothesis HO : Permutation updates order.
  Hypothesis HE : Permutation (add_counts pair_eqb [] (concat order)) entries.
  Notation occ p := (count_occ pair_dec (flat_map pairs_in encodings) p).

  Lemma pair_total p : total pair_eqb p (concat order) = occ p.
  Proof.
    rewrite <- (total_perm _ p (concat_perm HO)), <- (chunks_concat encodings Hc). now apply chunks_total.
  Qed.
  Lemma pair_keys p : In p (map fst (concat order)) <-> In p (flat_map pairs_in encodings).
  Proof.
    transitivity (In p (map fst (concat updates))); [split; apply Permutation_in, Permutation_map, concat_perm; auto using Permutation_sym|].
    rewrite <- (chunks_concat encodings Hc). now apply chunks_keys.
  Qed.
  Lemma pair_entries : NoDup (map fst entries) /\ forall p n, In (p, n) entries <-> n = occ p /\ In p (flat_map pairs_in encodings).
  Proof.
    split.
    - apply (Permutation_NoDup (Permutation_map fst HE)). apply (add_counts_keys _ pair_eqb_spec). constructor.
    - intros p n. transitivity (In (p, n) (add_counts pair_eqb [] (concat order))); [split; apply Permutation_in; auto using Permutation_sym|].
      rewrite (add_counts_In _ pair_eqb_spec), pair_total, pair_keys. tauto.
  Qed.
End Counts.

(** ** The scan *)
Section Scan.
  Variable c : merge_cfg.
  Variable V : list scored_token.
  Definition tok_of (id : N) : scored_token := nth (N.to_nat id) V (ST [] f0 false).
  Definition merge_of (p : (N * N) * nat) : scored_token := merged_token c (tok_of (fst (fst p))) (tok_of (snd (fst p))).
  Definition valid_pair (p : N * N) : Prop := (N.to_nat (fst p) < length V) /\ (N.to_nat (snd p) < length V).

  Lemma index_tok A id : N.to_nat id < length V -> index (V ++ A) (N.to_nat id) = Ok (tok_of id).
  Proof. intros H. unfold index, tok_of. rewrite nth_error_app1 by exact H. now rewrite (nth_error_nth' V (ST [] f0 false)) by exact H. Qed.

  Lemma merge_scan_spec pairs : forall A merges, Forall (fun p => valid_pair (fst p)) pairs ->
    let added := firstn merges (filter (fun t => negb (refused c t)) (map merge_of pairs)) in
    merge_scan c pairs (model_from (V ++ A)) merges = Ok (model_from (V ++ A ++ added), merges - length added).
  Proof.
    induction pairs as [|[[a b] f] pairs IH]; intros A merges H; cbn zeta.
    - simpl. rewrite firstn_nil, app_nil_r. simpl. now rewrite Nat.sub_0_r.
    - inversion H as [|? ? [Ha Hb] H']; subst. simpl in Ha, Hb. cbn [merge_scan map filter]. destruct (Nat.eqb_spec merges 0) as [->|Hm].
      + simpl. now rewrite app_nil_r.
      + rewrite model_from_vocab, (index_tok A _ Ha), (index_tok A _ Hb). cbn [bind]. change (merged_token c (tok_of a) (tok_of b)) with (merge_of (a, b, f)).
        destruct (refused c (merge_of (a, b, f))); cbn [negb].
        * now apply IH.
        * rewrite add_tokens_from, <- app_assoc, (IH (A ++ [_]) (merges - 1) H'). destruct merges as [|k]; [lia|].
          replace (S k - 1) with k by lia. cbn [firstn length]. rewrite <- !app_assoc. simpl. reflexivity.
  Qed.
End Scan.

(** ** Rounds *)
Section Rounds.
  Variable s : sorter.
  Hypothesis Hs : valid_sorter s.
  Variable threads : nat.
  Variable c : merge_cfg.
  Variable samples : list bytes.
  Variable start : nat.
  Notation enc V := (fun sample ids => encode (model_from V) (fun _ => f0) sample f0 = Ok ids).
  Notation round := (merge_round s threads c samples start).

  (** The pairs in the order they are tried: all neighbours in the encodings, the most frequent first. *)
  Definition tried (encodings : list (list N)) (pairs : list ((N * N) * nat)) : Prop :=
    NoDup (map fst pairs) /\
    (forall p n, In (p, n) pairs <-> n = count_occ pair_dec (flat_map pairs_in encodings) p /\ In p (flat_map pairs_in encodings)) /\
    StronglySorted (fun p q => snd q <= snd p) pairs.

  Lemma pairs_in_In ids a b : In (a, b) (pairs_in ids) -> In a ids /\ In b ids.
  Proof.
    intros H. split; [eapply in_combine_l; exact H|]. apply in_combine_r in H. destruct ids; [contradiction|now right].
  Qed.

  Lemma round_spec V r : fits V -> round (model_from V) r ->
    r = Panic /\ (exists sample, In sample samples /\ forall ids, encode (model_from V) (fun _ => f0) sample f0 <> Ok ids) \/
    exists encodings pairs, Forall2 (enc V) samples encodings /\ tried encodings pairs /\ Forall (fun p => valid_pair V (fst p)) pairs /\
      let merges := Nat.min (mc_step c) (mc_num_merges c - (length V - start)) in
      let added := firstn merges (filter (fun t => negb (refused c t)) (map (merge_of c V) pairs)) in
      r = Ok (model_from (V ++ added), merges - length added).
  Proof.
    intros HV H. inversion H as [sample Hin Hno|encodings updates order entries HE HF HO HP]; subst; [left; eauto|right].
    assert (Hc : 1 <= par_chunk_size threads (length samples) 4) by (unfold par_chunk_size; lia).
    destruct (pair_entries encodings Hc HF HO HP) as [HD HI].
    destruct (sort_by_nat_desc_ok snd entries Hs) as [P S]. set (pairs := sort_by_nat_desc s snd entries) in *.
    exists encodings, pairs. assert (HT : tried encodings pairs).
    { split; [|split; [|exact S]].
      - apply (Permutation_NoDup (Permutation_map fst P) HD).
      - intros p n. rewrite <- HI. split; apply Permutation_in; auto using Permutation_sym. }
    assert (HVP : Forall (fun p => valid_pair V (fst p)) pairs).
    { apply Forall_forall. intros [[a b] n] Hin. apply HT in Hin as [_ Hin]. apply in_flat_map in Hin as (ids & Hids & Hin).
      apply pairs_in_In in Hin as [Ha Hb].
      assert (Hids' : exists sample, enc V sample ids).
      { clear - HE Hids. induction HE as [|x y l l' E _ IH]; [contradiction|]. destruct Hids as [->|]; eauto. }
      destruct Hids' as [sample Es]. apply (encode_sound HV) in Es. apply Cut_Spells in Es. clear - Es Ha Hb.
      assert (Hlt : forall id, In id ids -> N.to_nat id < length V).
      { clear Ha Hb. induction Es as [|id t ids s Ht _ IH]; [contradiction|]. intros id' [<-|Hin]; [|auto]. apply nth_error_Some. unfold token_at in Ht. congruence. }
      split; apply Hlt; assumption. }
    split; [exact HE|]. split; [exact HT|]. split; [exact HVP|]. unfold vocab_size. rewrite model_from_vocab.
    rewrite <- (app_nil_r V) at 1. rewrite (merge_scan_spec c [] _ HVP). now rewrite app_nil_l.
  Qed.
End Rounds.

(** ** Runs *)
Lemma In_firstn {A} n (l : list A) x : In x (firstn n l) -> In x l.
Proof. intros H. rewrite <- (firstn_skipn n l). apply in_or_app. now left. Qed.
Lemma firstn_le_app {A} j (l l' : list A) : j <= length l -> firstn j (l ++ l') = firstn j l.
Proof. intros H. rewrite firstn_app. replace (j - length l) with 0 by lia. now rewrite firstn_O, app_nil_r. Qed.

Lemma pairs_in_adjacent ids a b : In (a, b) (pairs_in ids) <-> exists l l', ids = l ++ a :: b :: l'.
Proof.
  unfold pairs_in. split.
  - induction ids as [|x ids IH]; [contradiction|]. destruct ids as [|y ids]; [contradiction|]. intros [E|H].
    + injection E as -> ->. now exists [], ids.
    + destruct (IH H) as (l & l' & E). exists (x :: l), l'. simpl. now rewrite <- E.
  - intros (l & l' & ->). induction l as [|x l IH]; [now left|]. destruct l as [|y l]; right; exact IH.
Qed.

Section Runs.
  Variable s : sorter.
  Hypothesis Hs : valid_sorter s.
  Variable threads : nat.
  Variable c : merge_cfg.
  Variable samples : list bytes.
  Variable V : list scored_token.
  Hypothesis HV : fits V.
  Hypothesis Hn : (N.of_nat (length V + mc_num_merges c) < 2 ^ 32)%N.
  Hypothesis Hl : (N.of_nat (mc_max_token_length c) < 2 ^ 32)%N.
  Notation enc V := (fun sample ids => encode (model_from V) (fun _ => f0) sample f0 = Ok ids).
  Notation round := (merge_round s threads c samples (length V)).
  Notation rounds := (merge_rounds s threads c samples (length V)).
  Notation loop := (merge_loop s threads c samples (length V)).

  (** Where a new token comes from. *)
  Definition origin (V : list scored_token) (tok : scored_token) : Prop :=
    exists sample ids l a b l' ta tb, In sample samples /\ encode (model_from V) (fun _ => f0) sample f0 = Ok ids /\
      ids = l ++ a :: b :: l' /\ token_at V a ta /\ token_at V b tb /\
      st_value tok = st_value ta ++ st_value tb /\ st_score tok = fmul (fadd (st_score ta) (st_score tb)) (mc_scale_factor c) /\
      st_keep tok = false /\ length (st_value tok) <= mc_max_token_length c /\ mc_allow c (from_utf8_lossy (st_value tok)) = true.
  Definition history (added : list scored_token) : Prop :=
    forall i tok, nth_error added i = Some tok -> exists j, j <= i /\ origin (V ++ firstn j added) tok.

  Lemma refused_false t : refused c t = false <-> length (st_value t) <= mc_max_token_length c /\ mc_allow c (from_utf8_lossy (st_value t)) = true.
  Proof. unfold refused, st_len. rewrite Bool.orb_false_iff, Bool.negb_false_iff, Nat.ltb_ge. reflexivity. Qed.

  (** One round, from the tokens [W]. *)
  Lemma round_origin W merges encodings pairs : Forall2 (enc W) samples encodings -> tried encodings pairs -> Forall (fun p => valid_pair W (fst p)) pairs ->
    Forall (origin W) (firstn merges (filter (fun t => negb (refused c t)) (map (merge_of c W) pairs))).
  Proof.
    intros HE HT HP. apply Forall_forall. intros tok Hin. apply In_firstn in Hin. apply filter_In in Hin as [Hin Hr]. apply Bool.negb_true_iff, refused_false in Hr as [Hr1 Hr2].
    apply in_map_iff in Hin as ([[a b] n] & <- & Hin). rewrite Forall_forall in HP. destruct (HP _ Hin) as [Ha Hb]. simpl in Ha, Hb.
    apply HT in Hin as [_ Hin]. apply in_flat_map in Hin as (ids & Hids & Hin). apply pairs_in_adjacent in Hin as (l & l' & ->).
    assert (Hs' : exists sample, In sample samples /\ enc W sample (l ++ a :: b :: l')).
    { clear - HE Hids. induction HE as [|x y xs ys E _ IH]; [contradiction|]. destruct Hids as [->|Hin]; [exists x; split; [now left|exact E]|].
      destruct (IH Hin) as (x' & Hx & E'). exists x'. split; [now right|exact E']. }
    destruct Hs' as (sample & Hsam & E). exists sample, (l ++ a :: b :: l'), l, a, b, l', (tok_of W a), (tok_of W b).
    assert (Ht : forall id, N.to_nat id < length W -> token_at W id (tok_of W id)) by (intros; unfold token_at, tok_of; now apply nth_error_nth').
    repeat match goal with |- _ /\ _ => split end; auto.
  Qed.

  Lemma history_app added more : history added -> Forall (origin (V ++ added)) more -> history (added ++ more).
  Proof.
    intros HH HF i tok Hi. destruct (Nat.lt_ge_cases i (length added)) as [Hlt|Hge].
    - rewrite nth_error_app1 in Hi by exact Hlt. destruct (HH _ _ Hi) as (j & Hj & HO). exists j. split; [exact Hj|]. rewrite firstn_le_app by lia. exact HO.
    - rewrite nth_error_app2 in Hi by exact Hge. exists (length added). split; [exact Hge|]. rewrite firstn_le_app, firstn_all by lia.
      rewrite Forall_forall in HF. apply HF. eapply nth_error_In. exact Hi.
  Qed.

  Lemma history_fits added : history added -> length added <= mc_num_merges c -> fits (V ++ added).
  Proof.
    intros HH HL. split.
    - rewrite app_length. lia.
    - apply Forall_app. split; [apply HV|]. apply Forall_forall. intros tok Hin. apply In_nth_error in Hin as [i Hi].
      destruct (HH _ _ Hi) as (j & _ & ? & ? & ? & ? & ? & ? & ? & ? & HO). decompose [and] HO. lia.
  Qed.

  (** No more merges are possible, but the loop will not notice. *)
  Definition blocked (W : list scored_token) : Prop :=
    exists encodings, Forall2 (enc W) samples encodings /\
      forall a b ta tb, In (a, b) (flat_map pairs_in encodings) -> token_at W a ta -> token_at W b tb ->
        mc_max_token_length c < length (st_value ta ++ st_value tb) \/ mc_allow c (from_utf8_lossy (st_value ta ++ st_value tb)) = false.
  Definition stuck (W : list scored_token) : Prop :=
    blocked W /\ 0 < length V + mc_num_merges c - length W < mc_step c.

  Lemma blocked_nothing W encodings pairs : Forall2 (enc W) samples encodings -> tried encodings pairs -> Forall (fun p => valid_pair W (fst p)) pairs ->
    (blocked W <-> filter (fun t => negb (refused c t)) (map (merge_of c W) pairs) = []).
  Proof.
    intros HE HT HP. rewrite Forall_forall in HP. split.
    - intros (encodings' & HE' & HB). assert (E : encodings' = encodings).
      { clear - HE HE'. revert encodings HE. induction HE' as [|x y l l' E _ IH]; intros es H; inversion H; subst; [reflexivity|]. f_equal; [congruence|auto]. }
      subst encodings'. destruct (filter _ _) as [|t ts] eqn:Ef; [reflexivity|exfalso].
      assert (Hin : In t (t :: ts)) by now left. rewrite <- Ef in Hin. apply filter_In in Hin as [Hin Hr]. apply Bool.negb_true_iff, refused_false in Hr.
      apply in_map_iff in Hin as ([[a b] n] & <- & Hin). destruct (HP _ Hin) as [Ha Hb]. apply HT in Hin as [_ Hin].
      destruct (HB a b (tok_of W a) (tok_of W b) Hin) as [H|H]; try (unfold token_at, tok_of; now apply nth_error_nth'); simpl in Hr; [lia|].
      destruct Hr as [_ Hr]. congruence.
    - intros Ef. exists encodings. split; [exact HE|]. intros a b ta tb Hin Hta Htb.
      destruct (Nat.lt_ge_cases (mc_max_token_length c) (length (st_value ta ++ st_value tb))) as [|Hle]; [now left|right].
      destruct (mc_allow c _) eqn:Ea; [exfalso|reflexivity].
      assert (Hp : In (a, b, count_occ pair_dec (flat_map pairs_in encodings) (a, b)) pairs) by (apply HT; now split).
      assert (Hm : In (merge_of c W (a, b, count_occ pair_dec (flat_map pairs_in encodings) (a, b))) (filter (fun t => negb (refused c t)) (map (merge_of c W) pairs))).
      { apply filter_In. split; [now apply in_map|]. apply Bool.negb_true_iff, refused_false. unfold merge_of, merged_token. simpl.
        unfold token_at in *. rewrite (nth_error_nth _ _ _ Hta : tok_of W a = ta), (nth_error_nth _ _ _ Htb : tok_of W b = tb). now split. }
      rewrite Ef in Hm. exact Hm.
  Qed.

  (** The states of the loop. *)
  Lemma rounds_inv k m' : rounds k (model_from V) m' ->
    exists added, m' = model_from (V ++ added) /\ length added <= mc_num_merges c /\ history added /\ (k <= length added \/ stuck (V ++ added)).
  Proof.
    remember (model_from V) as m eqn:Em. intros H. induction H as [m|k m m1 left m2 H IH Hlt Hr Hleft]; subst m.
    - exists []. rewrite app_nil_r. split; [reflexivity|]. split; [simpl; lia|]. split; [intros i tok Hi; now destruct i|left; simpl; lia].
    - destruct (IH eq_refl) as (added & -> & HL & HH & HK). clear IH H. set (W := V ++ added) in *.
      assert (HW : fits W) by now apply history_fits.
      unfold vocab_size in Hlt. rewrite model_from_vocab in Hlt.
      destruct (round_spec Hs HW Hr) as [[E _]|(encodings & pairs & HE & HT & HP & E)]; [discriminate|]. cbn zeta in E. injection E as E1 E2.
      assert (Hlen : length W = length V + length added) by (unfold W; apply app_length).
      set (merges := Nat.min _ _) in *. set (more := firstn merges _) in *.
      assert (Hmore : length more <= merges) by (unfold more; rewrite firstn_length; lia).
      exists (added ++ more). rewrite app_assoc. fold W. split; [congruence|]. rewrite app_length.
      assert (HMH : Forall (origin W) more) by now apply (@round_origin W merges encodings pairs).
      split; [lia|]. split; [now apply history_app|].
      destruct more as [|t more'] eqn:Em; [|cbn [length] in *; destruct HK as [HK|HK]; [left; lia|]].
      + right. rewrite app_nil_r. cbn [length] in *. split; [|lia]. apply (blocked_nothing HE HT HP). unfold more in Em.
        destruct (filter _ _) as [|t' ts]; [reflexivity|]. assert (Hm : merges <> 0) by (unfold merges in *; lia). destruct merges as [|]; [congruence|discriminate Em].
      + exfalso. destruct HK as [HB _]. apply (blocked_nothing HE HT HP) in HB. unfold more in Em. rewrite HB, firstn_nil in Em. discriminate.
  Qed.

  Lemma round_stuck W r : fits W -> stuck W -> round (model_from W) r -> exists left, r = Ok (model_from W, left) /\ left <> mc_step c.
  Proof.
    intros HW [HB Hrem] Hr. destruct (round_spec Hs HW Hr) as [[_ (sample & Hin & Hno)]|(encodings & pairs & HE & HT & HP & E)].
    - exfalso. destruct HB as (es & HE & _). clear - HE Hin Hno. induction HE as [|x y l l' E _ IH]; [contradiction|]. destruct Hin as [->|Hin]; [now apply (Hno y)|auto].
    - cbn zeta in E. apply (blocked_nothing HE HT HP) in HB. rewrite HB, firstn_nil, app_nil_r in E. eexists. split; [exact E|]. simpl. lia.
  Qed.

  Lemma round_exists W encodings : Forall2 (enc W) samples encodings -> exists r, round (model_from W) r.
  Proof.
    intros HE. eexists. eapply round_ends with (updates := map chunk_pairs (chunks (par_chunk_size threads (length samples) 4) encodings)); [exact HE| |reflexivity|reflexivity].
    induction (chunks _ encodings); simpl; constructor; auto.
  Qed.

  Lemma rounds_trans j k m1 m2 m3 : rounds j m1 m2 -> rounds k m2 m3 -> rounds (j + k) m1 m3.
  Proof.
    intros H1 H2. revert H1. induction H2 as [m|k m m2 left m3 H2 IH Hlt Hr Hleft]; intros H1; [now rewrite Nat.add_0_r|].
    rewrite Nat.add_succ_r. econstructor; eauto.
  Qed.

  Lemma stuck_rounds W k m' : fits W -> stuck W -> rounds k (model_from W) m' -> m' = model_from W.
  Proof.
    intros HW HS. remember (model_from W) as m eqn:Em. induction 1 as [m|k m m2 left m3 H2 IH Hlt Hr Hleft]; subst m; [reflexivity|].
    rewrite (IH eq_refl) in Hr. destruct (round_stuck HW HS Hr) as (l & E & _). congruence.
  Qed.
  Lemma stuck_forever W k : fits W -> stuck W -> rounds k (model_from W) (model_from W).
  Proof.
    intros HW HS. induction k as [|k IH]; [constructor|]. assert (HS' := HS). destruct HS' as [(es & HE & _) Hrem].
    destruct (round_exists _ HE) as [r Hr]. destruct (round_stuck HW HS Hr) as (l & -> & Hl'). econstructor; [exact IH| |exact Hr|exact Hl'].
    unfold vocab_size. rewrite model_from_vocab. lia.
  Qed.
  Lemma stuck_no_result W r : fits W -> stuck W -> ~ loop (model_from W) r.
  Proof.
    intros HW HS H. inversion H as [k m' Hk Hd|k m' m'' Hk Hlt Hr|k m' Hk Hlt Hr]; subst; rewrite (stuck_rounds HW HS Hk) in *.
    - unfold vocab_size in Hd. rewrite model_from_vocab in Hd. destruct HS as [_ HS]. lia.
    - destruct (round_stuck HW HS Hr) as (l & E & Hl'). congruence.
    - destruct (round_stuck HW HS Hr) as (l & E & Hl'). congruence.
  Qed.

  (** The loop leaves through [break] if nothing is possible and at least [step] merges are still to do. *)
  Lemma round_break W m'' : fits W -> length W < length V + mc_num_merges c -> round (model_from W) (Ok (m'', mc_step c)) ->
    m'' = model_from W /\ mc_step c <= length V + mc_num_merges c - length W /\ (mc_step c <> 0 -> blocked W).
  Proof.
    intros HW Hlt Hr. destruct (round_spec Hs HW Hr) as [[E _]|(encodings & pairs & HE & HT & HP & E)]; [discriminate|]. cbn zeta in E. injection E as E1 E2.
    set (merges := Nat.min _ _) in *. set (more := firstn merges _) in *.
    assert (Hmore : length more <= merges) by (unfold more; rewrite firstn_length; lia).
    assert (Hm : merges <= mc_step c) by (unfold merges; lia). assert (E : more = []) by (destruct (Nat.eq_dec (mc_step c) 0); [apply length_zero_iff_nil; lia|apply length_zero_iff_nil; lia]).
    rewrite E, app_nil_r in E1. rewrite E in E2. cbn [length] in E2. split; [exact E1|]. split; [unfold merges in *; lia|].
    intros Hs0. apply (blocked_nothing HE HT HP). unfold more in E. destruct (filter _ _) as [|t' ts]; [reflexivity|].
    assert (Hm0 : merges <> 0) by (unfold merges in *; lia). destruct merges as [|]; [congruence|discriminate E].
  Qed.

  (** Results. *)
  Lemma loop_spec r : loop (model_from V) r ->
    r = Panic \/ exists added, r = Ok (model_from (V ++ added)) /\ length added <= mc_num_merges c /\ history added /\
      (length added = mc_num_merges c \/ mc_step c <= mc_num_merges c - length added /\ (mc_step c <> 0 -> blocked (V ++ added))).
  Proof.
    intros H. inversion H as [k m' Hk Hd|k m' m'' Hk Hlt Hr|k m' Hk Hlt Hr]; subst; [right|right|now left];
      destruct (rounds_inv Hk) as (added & -> & HL & HH & _); exists added.
    - unfold vocab_size in Hd. rewrite model_from_vocab, app_length in Hd. repeat match goal with |- _ /\ _ => split end; auto. left. lia.
    - unfold vocab_size in Hlt. rewrite model_from_vocab in Hlt. destruct (round_break (history_fits HH HL) Hlt Hr) as (-> & Hstep & HB).
      repeat match goal with |- _ /\ _ => split end; auto. right. rewrite app_length in *. split; [lia|exact HB].
  Qed.
  (** Every round, from a model that can encode the samples, has a result; so the loop never gets stuck in the model. *)
  Lemma loop_progress k m' : rounds k (model_from V) m' ->
    (exists r, loop (model_from V) r) \/ exists m'', rounds (S k) (model_from V) m''.
  Proof.
    intros Hk. destruct (rounds_inv Hk) as (added & -> & HL & HH & _). assert (HW := history_fits HH HL). set (W := V ++ added) in *.
    destruct (Nat.lt_ge_cases (vocab_size (model_from W)) (length V + mc_num_merges c)) as [Hlt|Hge]; [|left; eexists; eapply loop_done; eassumption].
    assert (Hr : exists r, round (model_from W) r).
    { assert (HD : (exists es, Forall2 (enc W) samples es) \/ exists sample, In sample samples /\ forall ids, encode (model_from W) (fun _ => f0) sample f0 <> Ok ids).
      { clear. induction samples as [|x xs [[es IH]|(y & Hy & Hno)]]; [left; exists []; constructor| |right; exists y; split; [now right|exact Hno]].
        destruct (encode (model_from W) (fun _ => f0) x f0) as [ids|e| |] eqn:E; [left; exists (ids :: es); now constructor|right; exists x; split; [now left|congruence]..]. }
      destruct HD as [[es HE]|(y & Hy & Hno)]; [now apply round_exists with es|exists Panic; now apply round_panics with y]. }
    destruct Hr as [r Hr]. destruct (round_spec Hs HW Hr) as [[-> _]|(encodings & pairs & HE & HT & HP & ->)]; [left; eexists; eapply loop_panic; eassumption|].
    cbn zeta in Hr. match type of Hr with merge_round _ _ _ _ _ _ (Ok (?m2, ?l)) => destruct (Nat.eq_dec l (mc_step c)) as [El|Nl] end.
    - left. rewrite El in Hr. eexists. eapply loop_break; eassumption.
    - right. eexists. econstructor; eassumption.
  Qed.
End Runs.
