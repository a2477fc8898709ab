(** Facts about sorting. *)
From Verif Require Import Base F64 F64Proofs Sort.
Set Implicit Arguments.

Lemma insert_sorted_perm {A} (le : A -> A -> bool) a l : Permutation (a :: l) (insert_sorted le a l).
Proof.
  induction l as [|b l IH]; [reflexivity|]. simpl. destruct (le a b); [reflexivity|].
  rewrite perm_swap. now apply perm_skip.
Qed.

Lemma insertion_sort_valid : valid_sorter insertion_sort.
Proof.
  intros A le l. induction l as [|a l IH]; intros Ht Htr; [split; constructor|]. simpl.
  destruct IH as [IP IS]; [intros; apply Ht; simpl; auto|intros x y z ? ? ?; apply Htr; simpl; auto|].
  fold (insertion_sort le l). set (r := insertion_sort le l) in *. split.
  - rewrite <- insert_sorted_perm. now apply perm_skip.
  - assert (Hin : forall x, In x r -> In x (a :: l)) by (intros x Hx; right; now apply (Permutation_in _ (Permutation_sym IP))).
    clear IP. induction IS as [|b r IS IH Hb]; [repeat constructor|]. simpl. destruct (le a b) eqn:E.
    + constructor; [constructor; auto|]. constructor; [exact E|]. rewrite Forall_forall in *. intros x Hx.
      apply (Htr a b x); auto; [now left|apply Hin; now left|apply Hin; now right].
    + constructor; [apply IH; intros x Hx; apply Hin; now right|]. rewrite Forall_forall in *. intros x Hx.
      apply (Permutation_in _ (Permutation_sym (insert_sorted_perm le a r))) in Hx as [<-|Hx]; [|auto].
      destruct (Ht a b); auto; [now left|apply Hin; now left|congruence].
Qed.

Lemma short_sorted {A} (R : A -> A -> Prop) l : length l < 2 -> StronglySorted R l.
Proof. destruct l as [|x [|y l]]; simpl; intros; try lia; repeat constructor. Qed.

Lemma sort_by_f64_ok {A} s (key : A -> f64) l r : valid_sorter s -> sort_by_f64 s key l = Ok r ->
  Permutation l r /\ StronglySorted (fun a b => fleb (key a) (key b) = true) r.
Proof.
  intros Hs. unfold sort_by_f64. destruct (Nat.ltb_spec (length l) 2) as [Hl|Hl].
  - intros [= <-]. split; [reflexivity|now apply short_sorted].
  - destruct (existsb _ l) eqn:E; [discriminate|]. intros [= <-].
    assert (Hn : forall a, In a l -> f_is_nan (key a) = false).
    { intros a Ha. apply Bool.not_true_iff_false. intros En. rewrite <- Bool.not_true_iff_false, existsb_exists in E. eauto. }
    apply Hs; [intros a b Ha Hb; apply fleb_total; auto|]. intros a b c _ _ _. apply fleb_trans.
Qed.
Lemma sort_by_f64_desc_ok {A} s (key : A -> f64) l r : valid_sorter s -> sort_by_f64_desc s key l = Ok r ->
  Permutation l r /\ StronglySorted (fun a b => fleb (key b) (key a) = true) r.
Proof.
  intros Hs. unfold sort_by_f64_desc. destruct (Nat.ltb_spec (length l) 2) as [Hl|Hl].
  - intros [= <-]. split; [reflexivity|now apply short_sorted].
  - destruct (existsb _ l) eqn:E; [discriminate|]. intros [= <-].
    assert (Hn : forall a, In a l -> f_is_nan (key a) = false).
    { intros a Ha. apply Bool.not_true_iff_false. intros En. rewrite <- Bool.not_true_iff_false, existsb_exists in E. eauto. }
    apply Hs; [intros a b Ha Hb; destruct (fleb_total (key a) (key b)); auto|]. intros a b c _ _ _ H1 H2. eapply fleb_trans; eassumption.
Qed.
(** They panic exactly on a NaN key in a list of two or more. *)
Lemma sort_by_f64_total {A} s (key : A -> f64) l :
  (exists r, sort_by_f64 s key l = Ok r) \/ sort_by_f64 s key l = Panic /\ 2 <= length l /\ exists a, In a l /\ f_is_nan (key a) = true.
Proof.
  unfold sort_by_f64. destruct (Nat.ltb_spec (length l) 2); [eauto|]. destruct (existsb _ l) eqn:E; [|eauto].
  apply existsb_exists in E as (a & ? & ?). right. eauto.
Qed.
Lemma sort_by_f64_desc_total {A} s (key : A -> f64) l :
  (exists r, sort_by_f64_desc s key l = Ok r) \/ sort_by_f64_desc s key l = Panic /\ 2 <= length l /\ exists a, In a l /\ f_is_nan (key a) = true.
Proof.
  unfold sort_by_f64_desc. destruct (Nat.ltb_spec (length l) 2); [eauto|]. destruct (existsb _ l) eqn:E; [|eauto].
  apply existsb_exists in E as (a & ? & ?). right. eauto.
Qed.
Lemma sort_by_nat_desc_ok {A} s (key : A -> nat) l : valid_sorter s ->
  Permutation l (sort_by_nat_desc s key l) /\ StronglySorted (fun a b => key b <= key a) (sort_by_nat_desc s key l).
Proof.
  intros Hs. destruct (Hs A (fun a b => key b <=? key a) l) as [P S].
  - intros a b _ _. destruct (Nat.leb_spec (key b) (key a)); [auto|]. right. apply Nat.leb_le. lia.
  - intros a b c _ _ _ H1%Nat.leb_le H2%Nat.leb_le. apply Nat.leb_le. lia.
  - split; [exact P|]. clear P. unfold sort_by_nat_desc. induction S as [|x r S IH Hx]; constructor; [exact IH|].
    eapply Forall_impl; [|exact Hx]. simpl. intros. now apply Nat.leb_le.
Qed.

(** Sorted lists, cut in two. *)
Lemma StronglySorted_app {A} (R : A -> A -> Prop) l1 l2 : StronglySorted R (l1 ++ l2) -> forall a b, In a l1 -> In b l2 -> R a b.
Proof.
  induction l1 as [|x l1 IH]; simpl; intros H a b Ha Hb; [contradiction|]. inversion H as [|? ? HS HF]; subst.
  destruct Ha as [<-|Ha]; [|eauto]. rewrite Forall_forall in HF. apply HF. apply in_or_app. auto.
Qed.
Lemma StronglySorted_filter {A} (R : A -> A -> Prop) f l : StronglySorted R l -> StronglySorted R (filter f l).
Proof.
  induction 1 as [|x l H IH Hx]; [constructor|]. simpl. destruct (f x); [|exact IH]. constructor; [exact IH|].
  rewrite Forall_forall in *. intros y Hy. apply filter_In in Hy as [Hy _]. auto.
Qed.
Lemma StronglySorted_impl {A} (R R' : A -> A -> Prop) l : (forall a b, R a b -> R' a b) -> StronglySorted R l -> StronglySorted R' l.
Proof. intros H. induction 1 as [|x l HS IH Hx]; constructor; [exact IH|]. eapply Forall_impl; [|exact Hx]. auto. Qed.
