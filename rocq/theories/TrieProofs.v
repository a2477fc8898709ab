(** The trie as a finite map from byte strings, and its prefix search. *)
From Verif Require Import Base BaseProofs Trie.
Set Implicit Arguments.

Section TrieFacts.
  Context {A : Type}.

  (** The value stored at a key. *)
  Fixpoint t_find (t : trie A) (key : bytes) : option A :=
    match key with
    | [] => t_data t
    | b :: key' =>
        match hm_get Byte.eqb b (t_children t) with
        | Some c => t_find c key'
        | None => None
        end
    end.

  Lemma t_find_default key : t_find t_default key = None.
  Proof. destruct key; reflexivity. Qed.

  Lemma t_find_push key : forall t d key',
    t_find (t_push t key d) key' = if bytes_eqb key' key then Some d else t_find t key'.
  Proof.
    induction key as [|b key IH]; intros [da ch] d [|b' key']; simpl; try reflexivity.
    rewrite (hm_get_insert byte_eqb_spec).
    destruct (byte_eqb_spec b' b) as [->|Hn]; simpl; [|reflexivity].
    rewrite IH. destruct (bytes_eqb key' key); [reflexivity|].
    destruct (hm_get Byte.eqb b ch); [reflexivity|apply t_find_default].
  Qed.

  Definition opt_list (o : option A) : list A := match o with Some a => [a] | None => [] end.

  (** All values found at the non-empty prefixes of [s], shortest first. *)
  Definition prefix_hits (t : trie A) (s : bytes) : list A :=
    flat_map (fun l => opt_list (t_find t (firstn l s))) (seq 1 (length s)).

  Lemma flat_map_seq_shift {B} (f : nat -> list B) a n :
    flat_map f (seq (S a) n) = flat_map (fun l => f (S l)) (seq a n).
  Proof. revert a; induction n as [|n IH]; intros a; simpl; [reflexivity|now rewrite IH]. Qed.

  Lemma flat_map_nil {B C} (f : B -> list C) l : (forall x, f x = []) -> flat_map f l = [].
  Proof. intros H. induction l as [|x l IH]; simpl; [reflexivity|]. now rewrite H, IH. Qed.

  Lemma prefix_hits_cons t b s :
    prefix_hits t (b :: s) =
    match hm_get Byte.eqb b (t_children t) with
    | None => []
    | Some c => opt_list (t_data c) ++ prefix_hits c s
    end.
  Proof.
    unfold prefix_hits. simpl length. rewrite flat_map_seq_shift. simpl.
    destruct (hm_get Byte.eqb b (t_children t)) as [c|] eqn:E; simpl.
    - reflexivity.
    - now apply flat_map_nil.
  Qed.

  Lemma ti_collect_fuel_hits s : forall fuel t p,
    length s < fuel -> ti_collect_fuel fuel (TrieIter t p s) = prefix_hits t s.
  Proof.
    induction s as [|b s IH]; intros [|fuel] t p Hf; simpl in Hf; try lia.
    - reflexivity.
    - rewrite prefix_hits_cons. cbn [ti_collect_fuel]. unfold ti_next. cbn [ti_next_loop ti_node ti_prefix ti_iterator].
      destruct (hm_get Byte.eqb b (t_children t)) as [c|]; [|reflexivity].
      destruct (t_data c) as [d|]; simpl.
      + now rewrite IH by lia.
      + rewrite <- (IH (S fuel) c (p ++ [b])) by lia. reflexivity.
  Qed.

  Lemma search_hits t s p : ti_collect (t_common_prefix_search t s p) = prefix_hits t s.
  Proof. unfold ti_collect, t_common_prefix_search. apply ti_collect_fuel_hits. simpl. lia. Qed.

  (** One call of [next]: what it returns, what it has consumed, what is in the caller's buffer. *)
  Lemma ti_next_spec s : forall t p o it,
    ti_next (TrieIter t p s) = (o, it) ->
    exists consumed, s = consumed ++ ti_iterator it /\ ti_prefix it = p ++ consumed /\
      match o with
      | Some d => consumed <> [] /\ t_find t consumed = Some d /\
                  (forall q, t_find (ti_node it) q = t_find t (consumed ++ q)) /\
                  (forall l, 0 < l < length consumed -> t_find t (firstn l consumed) = None)
      | None => forall l, 0 < l <= length s -> t_find t (firstn l s) = None
      end.
  Proof.
    unfold ti_next; simpl.
    induction s as [|b s IH]; intros t p o it; simpl.
    - intros [= <- <-]. exists []. simpl. rewrite app_nil_r. split; [reflexivity|]. split; [reflexivity|]. intros l Hl. lia.
    - destruct (hm_get Byte.eqb b (t_children t)) as [c|] eqn:E.
      + destruct (t_data c) as [d|] eqn:Ed.
        * intros [= <- <-]. exists [b]. simpl. rewrite E. split; [reflexivity|]. split; [reflexivity|].
          split; [discriminate|]. split; [exact Ed|]. split; [reflexivity|].
          intros l Hl. lia.
        * intros H. apply IH in H. destruct H as (cs & Hs & Hp & Ho).
          exists (b :: cs). simpl. rewrite Hs at 1. split; [reflexivity|].
          split; [now rewrite Hp, <- app_assoc|].
          destruct o as [d|].
          -- destruct Ho as (Hne & Hf & Hq & Hl). split; [discriminate|]. rewrite E. split; [exact Hf|].
             split; [exact Hq|].
             intros [|l] Hl'; simpl; [lia|]. rewrite E. destruct l; [exact Ed|]. apply Hl. lia.
          -- intros [|l] Hl'; simpl in *; [lia|]. rewrite E. destruct l; [exact Ed|]. apply Ho. lia.
      + intros [= <- <-]. exists [b]. simpl. split; [reflexivity|]. split; [reflexivity|].
        intros [|l] Hl; simpl; [lia|]. now rewrite E.
  Qed.
End TrieFacts.

(** Successive successful calls of [next]. *)
Inductive ti_steps {A} : trie_iter A -> list A -> trie_iter A -> Prop :=
| ti_steps_nil it : ti_steps it [] it
| ti_steps_snoc it items it1 d it2 :
    ti_steps it items it1 -> ti_next it1 = (Some d, it2) -> ti_steps it (items ++ [d]) it2.

Lemma ti_steps_spec {A} (t : trie A) s p it0 items it : it0 = TrieIter t p s -> ti_steps it0 items it ->
  exists consumed, s = consumed ++ ti_iterator it /\ ti_prefix it = p ++ consumed /\
    (forall q, t_find (ti_node it) q = t_find t (consumed ++ q)) /\
    (items = [] /\ consumed = [] \/ exists items' d, items = items' ++ [d] /\ t_find t consumed = Some d /\ consumed <> []).
Proof.
  intros -> H. remember (TrieIter t p s) as it0 eqn:E0. revert E0.
  induction H as [it|it items it1 d it2 H IH Hn]; intros E0.
  - subst it. exists []. simpl. rewrite app_nil_r. repeat split; auto.
  - destruct (IH E0) as (c & Hs & Hp & Hq & _). destruct it1 as [n1 p1 s1]. simpl in *.
    apply ti_next_spec in Hn as (c' & Hs' & Hp' & Hne & Hf & Hq' & _).
    exists (c ++ c'). split; [now rewrite Hs, Hs', <- app_assoc|]. split; [now rewrite Hp', Hp, <- app_assoc|].
    split.
    + intros q. rewrite Hq', Hq, app_assoc. reflexivity.
    + right. exists items, d. split; [reflexivity|]. split; [now rewrite <- Hq|]. intros He. apply app_eq_nil in He as [_ He]. congruence.
Qed.
