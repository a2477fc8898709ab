(** Facts about the filter. *)
From Verif Require Import Base F64 F64Proofs Trie Model ModelProofs Sort SortProofs Filter.
Set Implicit Arguments.

Section Loop.
  Variable c : filter_cfg.
  Definition removable (t : scored_token) : bool :=
    negb ((st_keep t && negb (fc_force c)) || fltb (match fc_min_score c with Some m => m | None => fninf end) (st_score t)).

  Lemma filter_loop_spec l : forall n removed out, exists kept, filter_loop c n l removed out = out ++ kept /\
    Permutation l (kept ++ firstn (n - removed) (filter removable l)) /\
    filter removable kept = skipn (n - removed) (filter removable l).
  Proof.
    induction l as [|t l IH]; intros n removed out.
    - exists []. simpl. rewrite app_nil_r, firstn_nil, skipn_nil. auto.
    - cbn [filter_loop filter]. rewrite <- orb_assoc.
      replace (_ || fltb _ _) with (negb (removable t)) by (unfold removable; apply negb_involutive).
      destruct (Nat.leb_spec n removed) as [Hn|Hn]; cbn [orb].
      + destruct (IH n removed (out ++ [t])) as (kept & -> & P & E). exists (t :: kept). replace (n - removed) with 0 in * by lia.
        rewrite <- app_assoc. split; [reflexivity|]. rewrite firstn_O in *. split; [now apply perm_skip|]. cbn [filter skipn] in *. now rewrite E.
      + destruct (removable t) eqn:Ek; cbn [negb].
        * destruct (IH n (S removed) out) as (kept & -> & P & E). exists kept. split; [reflexivity|].
          replace (n - removed) with (S (n - S removed)) by lia. cbn [firstn skipn]. split; [|exact E].
          rewrite P at 1. apply Permutation_middle.
        * destruct (IH n removed (out ++ [t])) as (kept & -> & P & E). exists (t :: kept). rewrite <- app_assoc. split; [reflexivity|].
          split; [now apply perm_skip|]. cbn [filter]. now rewrite Ek.
  Qed.
End Loop.

Lemma filter_perm_length {A} (f : A -> bool) l l' : Permutation l l' -> length (filter f l) = length (filter f l').
Proof. induction 1; simpl; repeat destruct (f _); simpl; congruence. Qed.

Lemma filter_model_spec s1 s2 c m m' : valid_sorter s1 -> valid_sorter s2 -> filter_model s1 s2 c m = Ok m' ->
  vocab_size m <= fc_vocab_size c /\ m' = m \/
  fc_vocab_size c < vocab_size m /\ m' = model_from (m_vocab m') /\
  StronglySorted (fun a b => fleb (st_score b) (st_score a) = true) (m_vocab m') /\
  exists removed, Permutation (m_vocab m) (m_vocab m' ++ removed) /\
    Forall (fun t => removable c t = true) removed /\
    length removed = Nat.min (vocab_size m - fc_vocab_size c) (length (filter (removable c) (m_vocab m))) /\
    forall a b, In a removed -> In b (m_vocab m') -> removable c b = true -> fleb (st_score a) (st_score b) = true.
Proof.
  intros H1 H2. unfold filter_model. destruct (Nat.leb_spec (vocab_size m) (fc_vocab_size c)) as [Hl|Hl].
  - intros [= <-]. auto.
  - destruct (sort_by_f64 s1 st_score (m_vocab m)) as [v| | |] eqn:E1; try discriminate. simpl.
    destruct (filter_loop_spec c v (vocab_size m - fc_vocab_size c) 0 []) as (kept & -> & P & Ek). simpl in *. rewrite Nat.sub_0_r in *.
    destruct (sort_by_f64_desc s2 st_score kept) as [v'| | |] eqn:E2; try discriminate. intros [= <-]. right.
    apply (sort_by_f64_ok _ _ H1) in E1 as [P1 S1]. apply (sort_by_f64_desc_ok _ _ H2) in E2 as [P2 S2].
    rewrite model_from_vocab. split; [exact Hl|]. split; [reflexivity|]. split; [exact S2|].
    exists (firstn (vocab_size m - fc_vocab_size c) (filter (removable c) v)). split; [|split; [|split]].
    + rewrite P1, P at 1. now apply Permutation_app_tail.
    + rewrite Forall_forall. intros t Ht. apply (fun H => proj2 (proj1 (filter_In (removable c) t v) H)).
      rewrite <- (firstn_skipn (vocab_size m - fc_vocab_size c) (filter _ v)). apply in_or_app. auto.
    + rewrite firstn_length. f_equal. apply filter_perm_length. now symmetry.
    + intros a b Ha Hb Hr. apply (StronglySorted_filter (removable c)) in S1.
      rewrite <- (firstn_skipn (vocab_size m - fc_vocab_size c) (filter _ v)) in S1. apply (StronglySorted_app _ _ S1); [exact Ha|].
      rewrite <- Ek. apply filter_In. split; [|exact Hr]. now apply (Permutation_in _ (Permutation_sym P2)).
Qed.

Lemma filter_model_total s1 s2 c m : valid_sorter s1 -> valid_sorter s2 ->
  (exists m', filter_model s1 s2 c m = Ok m') \/
  filter_model s1 s2 c m = Panic /\ fc_vocab_size c < vocab_size m /\ 2 <= vocab_size m /\ exists t, In t (m_vocab m) /\ f_is_nan (st_score t) = true.
Proof.
  intros H1 H2. unfold filter_model. destruct (Nat.leb_spec (vocab_size m) (fc_vocab_size c)) as [Hl|Hl]; [eauto|].
  destruct (sort_by_f64_total s1 st_score (m_vocab m)) as [[v E]|(E & Hn & Ht)]; rewrite E; simpl; [|auto].
  destruct (sort_by_f64_desc_total s2 st_score (filter_loop c (vocab_size m - fc_vocab_size c) v 0 [])) as [[v' E']|(E' & Hn & (t & Ht & Hnan))]; rewrite E'; simpl; [eauto|].
  right. destruct (filter_loop_spec c v (vocab_size m - fc_vocab_size c) 0 []) as (kept & Eq & P & _). rewrite Eq in *. simpl in *.
  apply (sort_by_f64_ok _ _ H1) in E as [P1 _]. repeat split; auto.
  - unfold vocab_size. rewrite (Permutation_length P1), (Permutation_length P), app_length. lia.
  - exists t. split; [|exact Hnan]. apply (Permutation_in _ (Permutation_sym P1)). apply (Permutation_in _ (Permutation_sym P)). apply in_or_app. auto.
Qed.
Lemma filter_model_panics s1 s2 c m : fc_vocab_size c < vocab_size m -> 2 <= vocab_size m ->
  (exists t, In t (m_vocab m) /\ f_is_nan (st_score t) = true) -> filter_model s1 s2 c m = Panic.
Proof.
  intros Hl Hn H. unfold filter_model. destruct (Nat.leb_spec (vocab_size m) (fc_vocab_size c)); [lia|].
  unfold sort_by_f64. fold (vocab_size m). destruct (Nat.ltb_spec (vocab_size m) 2); [lia|]. apply existsb_exists in H. now rewrite H.
Qed.
