(** Facts about idiom mining. *)
From Verif Require Import Base BaseProofs Sort SortProofs Par ParProofs Mine.
Set Implicit Arguments.

Definition bytes_dec : forall a b : bytes, {a = b} + {a <> b} := list_eq_dec Byte.byte_eq_dec.

Section Mine.
  Variable find_all : bytes -> list bytes.
  Notation occ samples k := (count_occ bytes_dec (flat_map find_all samples) k).

  Lemma chunk_idioms_eq chunk : chunk_idioms find_all chunk = add_counts bytes_eqb [] (map (fun p => (p, 1)) (flat_map find_all chunk)).
  Proof. unfold chunk_idioms. rewrite (fold_flat_map (fun m part => add_count bytes_eqb m (part, 1))). apply (fold_map (add_count bytes_eqb) (fun p => (p, 1))). Qed.
  Lemma chunk_total k chunk : total bytes_eqb k (chunk_idioms find_all chunk) = occ chunk k.
  Proof. rewrite chunk_idioms_eq, (total_adds _ bytes_eqb_spec). apply total_ones. apply bytes_eqb_spec. Qed.

  Lemma schedule_total k chs us sched : Forall2 (fun chunk us => Permutation (chunk_idioms find_all chunk) us) chs us ->
    Interleaving us sched -> total bytes_eqb k sched = occ (concat chs) k.
  Proof.
    intros HF HI. rewrite <- (total_perm _ k (Interleaving_perm HI)). clear HI.
    induction HF as [|ch u chs us P _ IH]; [reflexivity|]. cbn [concat]. rewrite flat_map_app, count_occ_app, total_app, IH.
    now rewrite <- (total_perm _ k P), chunk_total.
  Qed.
  Lemma schedule_keys chs us sched k : Forall2 (fun chunk us => Permutation (chunk_idioms find_all chunk) us) chs us ->
    Interleaving us sched -> In k (map fst sched) <-> 0 < occ (concat chs) k.
  Proof.
    intros HF HI. assert (P := Interleaving_perm HI). apply (Permutation_map fst) in P.
    transitivity (In k (map fst (concat us))); [split; apply Permutation_in; auto using Permutation_sym|]. clear P HI.
    change (0 < occ (concat chs) k) with (occ (concat chs) k > 0). rewrite <- count_occ_In. induction HF as [|ch u chs us P _ IH]; [reflexivity|]. cbn [concat]. rewrite flat_map_app, map_app, !in_app_iff, IH.
    assert (H : In k (map fst u) <-> In k (map fst (chunk_idioms find_all ch))) by (split; apply Permutation_in, Permutation_map; auto using Permutation_sym).
    rewrite H, chunk_idioms_eq. destruct (add_counts_keys _ bytes_eqb_spec (map (fun p => (p, 1)) (flat_map find_all ch)) [] (NoDup_nil _)) as [_ HK].
    rewrite HK, map_map, map_id. simpl. tauto.
  Qed.

  Variable s : sorter.
  Hypothesis Hs : valid_sorter s.
  Variables threads num : nat.
  Variable samples : list bytes.

  Lemma entries_spec us sched entries :
    Forall2 (fun chunk us => Permutation (chunk_idioms find_all chunk) us) (chunks (par_chunk_size threads (length samples) 5) samples) us ->
    Interleaving us sched -> Permutation (add_counts bytes_eqb [] sched) entries ->
    NoDup (map fst entries) /\ forall k n, In (k, n) entries <-> n = occ samples k /\ 0 < n.
  Proof.
    intros HF HI P. split.
    - apply (Permutation_NoDup (Permutation_map fst P)). apply (add_counts_keys _ bytes_eqb_spec). constructor.
    - intros k n. transitivity (In (k, n) (add_counts bytes_eqb [] sched)); [split; apply Permutation_in; auto using Permutation_sym|].
      rewrite (add_counts_In _ bytes_eqb_spec), (schedule_total k HF HI), (schedule_keys k HF HI), chunks_concat by (unfold par_chunk_size; lia).
      intuition congruence.
  Qed.

  Lemma mine_spec result : mine_result find_all s threads num samples result ->
    length result <= num /\ NoDup (map fst result) /\
    (forall k n, In (k, n) result -> n = occ samples k /\ 0 < n) /\
    StronglySorted (fun a b => snd b <= snd a) result /\
    (forall k, 0 < occ samples k -> ~ In k (map fst result) ->
       length result = num /\ forall k' n', In (k', n') result -> occ samples k <= n').
  Proof.
    intros (us & sched & entries & HF & HI & P & ->). destruct (entries_spec HF HI P) as [HD HE].
    destruct (sort_by_nat_desc_ok snd entries Hs) as [P' S']. set (l := sort_by_nat_desc s snd entries) in *.
    assert (HD' : NoDup (map fst l)) by (apply (Permutation_NoDup (Permutation_map fst P') HD)).
    assert (Hin : forall x, In x (firstn num l) -> In x entries).
    { intros x Hx. apply (Permutation_in _ (Permutation_sym P')). rewrite <- (firstn_skipn num l). apply in_or_app. auto. }
    rewrite <- (firstn_skipn num l), map_app in HD'. rewrite <- (firstn_skipn num l) in S'.
    repeat split.
    - rewrite firstn_length. lia.
    - clear - HD'. induction (map fst (firstn num l)) as [|x r IH]; [constructor|]. inversion HD' as [|? ? Hn HD]; subst. constructor; [|now apply IH].
      intros H. apply Hn. apply in_or_app. auto.
    - apply HE. now apply Hin.
    - apply (HE k n). now apply Hin.
    - clear - S'. induction (firstn num l) as [|x r IH]; [constructor|]. inversion S' as [|? ? HS HF]; subst. constructor; [now apply IH|].
      apply Forall_app in HF. tauto.
    - assert (Hk : In (k, occ samples k) l) by (apply (Permutation_in _ P'), HE; auto).
      rewrite firstn_length. destruct (Nat.le_gt_cases num (length l)); [lia|]. exfalso. apply H0. rewrite firstn_all2 by lia.
      apply (in_map fst) in Hk. exact Hk.
    - intros k' n' Hk'. assert (Hk : In (k, occ samples k) l) by (apply (Permutation_in _ P'), HE; auto).
      rewrite <- (firstn_skipn num l) in Hk. apply in_app_or in Hk as [Hk|Hk]; [apply (in_map fst) in Hk; contradiction|].
      apply (StronglySorted_app _ _ S' _ _ Hk' Hk).
  Qed.
End Mine.

Lemma mine_counts_unique find_all s s' threads threads' num samples r r' : valid_sorter s -> valid_sorter s' ->
  mine_result find_all s threads num samples r -> mine_result find_all s' threads' num samples r' -> map snd r = map snd r'.
Proof.
  intros Hs Hs' (us & sched & entries & HF & HI & P & ->) (us' & sched' & entries' & HF' & HI' & P' & ->).
  destruct (entries_spec _ _ _ HF HI P) as [HD HE]. destruct (entries_spec _ _ _ HF' HI' P') as [HD' HE'].
  destruct (sort_by_nat_desc_ok snd entries Hs) as [Q S]. destruct (sort_by_nat_desc_ok snd entries' Hs') as [Q' S'].
  rewrite <- !firstn_map. f_equal. apply sorted_perm_unique; try now apply StronglySorted_map.
  apply Permutation_map. rewrite <- Q, <- Q'. apply NoDup_Permutation; try (eapply NoDup_map_inv; eassumption).
  intros [k n]. now rewrite HE, HE'.
Qed.
