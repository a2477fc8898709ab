(** Facts about chunks, interleavings and counters. *)
From Verif Require Import Base BaseProofs Sort Par.
Set Implicit Arguments.

(** ** Chunks *)
Lemma chunks_loop_concat {A} c : 1 <= c -> forall fuel (l : list A), length l <= fuel -> concat (chunks_loop fuel c l) = l.
Proof.
  intros Hc. induction fuel as [|fuel IH]; intros l Hl; [destruct l; simpl in *; [reflexivity|lia]|].
  destruct l as [|a l]; [reflexivity|]. cbn [chunks_loop concat]. rewrite IH; [apply firstn_skipn|].
  rewrite skipn_length. cbn [length] in *. lia.
Qed.
Lemma chunks_concat {A} c (l : list A) : 1 <= c -> concat (chunks c l) = l.
Proof. intros H. now apply chunks_loop_concat. Qed.

Lemma chunks_loop_sizes {A} c : 1 <= c -> forall fuel (l : list A), Forall (fun ch => 1 <= length ch <= c) (chunks_loop fuel c l).
Proof.
  intros Hc. induction fuel as [|fuel IH]; intros [|a l]; simpl; constructor; [|apply IH].
  rewrite firstn_length. simpl. lia.
Qed.

Lemma chunks_loop_count {A} c : 1 <= c -> forall fuel (l : list A), length l <= fuel ->
  length (chunks_loop fuel c l) = (length l + (c - 1)) / c.
Proof.
  intros Hc. induction fuel as [|fuel IH]; intros l Hl.
  - destruct l; simpl in *; [|lia]. symmetry. apply Nat.div_small. lia.
  - destruct l as [|a l]; [simpl; symmetry; apply Nat.div_small; lia|].
    cbn [chunks_loop]. set (n := length (a :: l)) in *. cbn [length]. rewrite IH by (rewrite skipn_length; fold n; lia).
    rewrite skipn_length. fold n.
    assert (Hn : 1 <= n) by (subst n; simpl; lia). destruct (Nat.le_gt_cases n c) as [H|H].
    + replace (n - c) with 0 by lia. rewrite (Nat.div_small (0 + (c - 1))) by lia.
      replace (n + (c - 1)) with (n - 1 + 1 * c) by lia. rewrite Nat.div_add by lia. rewrite Nat.div_small by lia. lia.
    + replace (n + (c - 1)) with (n - c + (c - 1) + 1 * c) by lia. rewrite Nat.div_add by lia. lia.
Qed.

(** ** Interleavings *)
Lemma Interleaving_perm {A} (ls : list (list A)) out : Interleaving ls out -> Permutation (concat ls) out.
Proof.
  induction 1 as [ls H|ls1 a l ls2 out H IH].
  - induction H as [|l ls <- _ IH]; [reflexivity|exact IH].
  - rewrite concat_app in *. cbn [concat] in *. rewrite <- app_comm_cons, <- Permutation_middle. now apply perm_skip.
Qed.
Lemma Interleaving_concat {A} (ls : list (list A)) : Interleaving ls (concat ls).
Proof.
  enough (H : forall pre, Forall (eq []) pre -> Interleaving (pre ++ ls) (concat ls)) by apply (H [] (Forall_nil _)).
  induction ls as [|l ls IH]; intros pre Hp.
  - constructor. now rewrite app_nil_r.
  - cbn [concat]. induction l as [|a l IHl]; [|cbn; apply Il_step; exact IHl].
    cbn [app]. change (pre ++ [] :: ls) with (pre ++ [[]] ++ ls). rewrite app_assoc. apply IH. apply Forall_app. auto.
Qed.

(** ** Counters *)
Section Counts.
  Context {K : Type} (eqb : K -> K -> bool) (eqb_spec : forall a b, reflect (a = b) (eqb a b)).

  (** The sum of the updates of the key [k]. *)
  Definition total (k : K) (us : list (K * nat)) : nat := list_sum (map snd (filter (fun u => eqb k (fst u)) us)).

  Lemma total_cons k u us : total k (u :: us) = (if eqb k (fst u) then snd u else 0) + total k us.
  Proof. unfold total. simpl. destruct (eqb k (fst u)); reflexivity. Qed.
  Lemma total_app k us vs : total k (us ++ vs) = total k us + total k vs.
  Proof. induction us as [|u us IH]; [reflexivity|]. rewrite <- app_comm_cons, !total_cons, IH. lia. Qed.
  Lemma total_perm k us vs : Permutation us vs -> total k us = total k vs.
  Proof. induction 1; rewrite ?total_cons; lia. Qed.

  Lemma count_of_add k m u : count_of eqb k (add_count eqb m u) = count_of eqb k m + (if eqb k (fst u) then snd u else 0).
  Proof.
    unfold add_count, count_of at 1. rewrite (hm_get_insert eqb_spec). destruct (eqb_spec k (fst u)) as [->|]; [reflexivity|].
    fold (count_of eqb k m). lia.
  Qed.
  Lemma count_of_adds k us : forall m, count_of eqb k (add_counts eqb m us) = count_of eqb k m + total k us.
  Proof.
    induction us as [|u us IH]; intros m; [unfold total; simpl; lia|]. unfold add_counts. cbn [fold_left]. fold (add_counts eqb (add_count eqb m u) us).
    rewrite IH, count_of_add, total_cons. lia.
  Qed.

  Lemma count_of_adds0 k us : count_of eqb k (add_counts eqb [] us) = total k us.
  Proof. now rewrite count_of_adds. Qed.

  Lemma hm_insert_keys (k : K) (v : nat) m : NoDup (map fst m) -> NoDup (map fst (hm_insert eqb k v m)) /\
    forall k', In k' (map fst (hm_insert eqb k v m)) <-> k' = k \/ In k' (map fst m).
  Proof.
    induction m as [|[k1 v1] m IH]; simpl; intros H.
    - split; [repeat constructor; auto|]. intuition.
    - inversion H as [|? ? Hn HD]; subst. destruct (eqb_spec k k1) as [->|N]; simpl.
      + split; [constructor; auto|]. intuition.
      + destruct (IH HD) as [H1 H2]. split; [constructor; auto; rewrite H2; intuition|]. intros k'. rewrite H2. intuition.
  Qed.
  Lemma add_counts_keys us : forall m, NoDup (map fst m) -> NoDup (map fst (add_counts eqb m us)) /\
    forall k, In k (map fst (add_counts eqb m us)) <-> In k (map fst m) \/ In k (map fst us).
  Proof.
    induction us as [|u us IH]; intros m H; [simpl; intuition|]. unfold add_counts. cbn [fold_left]. fold (add_counts eqb (add_count eqb m u) us).
    destruct (hm_insert_keys (fst u) (count_of eqb (fst u) m + snd u) m H) as [H1 H2]. destruct (IH _ H1) as [H3 H4]. split; [exact H3|].
    intros k. rewrite H4. unfold add_count. rewrite H2. simpl. intuition.
  Qed.

  (** The entries of a map built from updates. *)
  Lemma add_counts_In us k n : In (k, n) (add_counts eqb [] us) <-> In k (map fst us) /\ n = total k us.
  Proof.
    destruct (add_counts_keys us [] (NoDup_nil _)) as [HD HK]. split.
    - intros H. split; [apply (in_map fst) in H; apply HK in H as [[]|H]; exact H|].
      apply (hm_In_get eqb_spec) in H; [|exact HD]. rewrite <- (count_of_adds0 k us). unfold count_of. now rewrite H.
    - intros [Hk ->]. assert (Hin : In k (map fst (add_counts eqb [] us))) by (apply HK; auto).
      apply in_map_iff in Hin as ([k' n'] & E & Hin). simpl in E. subst k'.
      replace (total k us) with n'; [exact Hin|]. assert (Hg : hm_get eqb k (add_counts eqb [] us) = Some n') by (apply (hm_In_get eqb_spec); assumption).
      rewrite <- (count_of_adds0 k us). unfold count_of. now rewrite Hg.
  Qed.

  (** The entries of a map, as updates. *)
  Lemma total_entries k m : NoDup (map fst m) -> total k m = count_of eqb k m.
  Proof.
    unfold count_of. induction m as [|[k' n] m IH]; intros H; [reflexivity|]. inversion H as [|? ? Hn HD]; subst.
    rewrite total_cons. cbn [hm_get fst snd]. destruct (eqb_spec k k') as [->|N]; [|now apply IH].
    rewrite IH by exact HD. destruct (hm_get eqb k' m) as [v|] eqn:E; [|lia]. exfalso. apply Hn. apply (hm_get_In eqb_spec) in E.
    now apply (in_map fst) in E.
  Qed.
  Lemma total_adds k us : total k (add_counts eqb [] us) = total k us.
  Proof. rewrite total_entries; [apply count_of_adds0|]. apply add_counts_keys. constructor. Qed.

  Variable dec : forall a b : K, {a = b} + {a <> b}.
  Lemma total_ones k l : total k (map (fun x => (x, 1)) l) = count_occ dec l k.
  Proof.
    induction l as [|x l IH]; [reflexivity|]. cbn [map]. rewrite total_cons, IH. simpl.
    destruct (eqb_spec k x), (dec x k); subst; try congruence; reflexivity.
  Qed.
End Counts.

Lemma fold_flat_map {A B S} (f : S -> B -> S) (g : A -> list B) l : forall s,
  fold_left (fun s a => fold_left f (g a) s) l s = fold_left f (flat_map g l) s.
Proof. induction l as [|a l IH]; intros s; [reflexivity|]. simpl. now rewrite fold_left_app, IH. Qed.
Lemma fold_map {A B S} (f : S -> B -> S) (g : A -> B) l : forall s, fold_left (fun s a => f s (g a)) l s = fold_left f (map g l) s.
Proof. induction l as [|a l IH]; intros s; [reflexivity|]. simpl. now rewrite IH. Qed.

(** Sorted permutations of numbers are equal. *)
Lemma sorted_perm_unique l : forall l', StronglySorted (fun a b => b <= a) l -> StronglySorted (fun a b => b <= a) l' -> Permutation l l' -> l = l'.
Proof.
  induction l as [|a l IH]; intros l' H H' P; [now apply Permutation_nil in P|].
  destruct l' as [|b l']; [symmetry in P; now apply Permutation_nil in P|].
  inversion H as [|? ? HS HF]; inversion H' as [|? ? HS' HF']; subst. rewrite Forall_forall in HF, HF'.
  assert (E : a = b).
  { assert (Ha : In a (b :: l')) by (apply (Permutation_in _ P); now left).
    assert (Hb : In b (a :: l)) by (apply (Permutation_in _ (Permutation_sym P)); now left).
    destruct Ha as [|Ha]; [congruence|]. destruct Hb as [|Hb]; [congruence|]. apply HF in Hb. apply HF' in Ha. lia. }
  subst b. f_equal. apply IH; auto. now apply Permutation_cons_inv in P.
Qed.
Lemma StronglySorted_map {A B} (f : A -> B) (R : B -> B -> Prop) l : StronglySorted (fun a b => R (f a) (f b)) l -> StronglySorted R (map f l).
Proof. induction 1; simpl; constructor; [assumption|]. now apply Forall_map. Qed.
