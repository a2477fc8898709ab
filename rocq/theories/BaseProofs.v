(** Facts about the common vocabulary of Base.v. *)
From Verif Require Import Base.
Set Implicit Arguments.

Lemma byte_eqb_refl b : Byte.eqb b b = true.
Proof. destruct b; reflexivity. Qed.

Lemma byte_eqb_spec a b : reflect (a = b) (Byte.eqb a b).
Proof.
  destruct (Byte.eqb a b) eqn:H; constructor.
  - now apply Byte.byte_dec_bl.
  - intros ->. rewrite byte_eqb_refl in H. discriminate.
Qed.

Lemma bytes_eqb_spec a : forall b, reflect (a = b) (bytes_eqb a b).
Proof.
  induction a as [|x a IH]; intros [|y b]; simpl; try (constructor; congruence).
  destruct (byte_eqb_spec x y) as [->|Hn]; simpl.
  - destruct (IH b); constructor; congruence.
  - constructor; congruence.
Qed.

Lemma bytes_eqb_refl a : bytes_eqb a a = true.
Proof. destruct (bytes_eqb_spec a a); congruence. Qed.

Lemma bytes_eqb_eq a b : bytes_eqb a b = true <-> a = b.
Proof. destruct (bytes_eqb_spec a b); split; congruence. Qed.

Lemma starts_with_spec s : forall p, reflect (exists r, s = p ++ r) (starts_with s p).
Proof.
  induction s as [|x s IH]; intros [|y p]; simpl.
  - constructor. now exists [].
  - constructor. intros [r Hr]. discriminate.
  - constructor. now exists (x :: s).
  - destruct (byte_eqb_spec x y) as [->|Hn]; simpl.
    + destruct (IH p) as [Hy|Hno]; constructor.
      * destruct Hy as [r ->]. now exists r.
      * intros [r Hr]. injection Hr as Hr. apply Hno. now exists r.
    + constructor. intros [r Hr]. injection Hr as Hx Hr. contradiction.
Qed.

Lemma starts_with_app p r : starts_with (p ++ r) p = true.
Proof. destruct (starts_with_spec (p ++ r) p) as [H|H]; [reflexivity|]. destruct H. now exists r. Qed.

Section HashMapFacts.
  Context {K V : Type} {eqb : K -> K -> bool} (eqb_spec : forall a b, reflect (a = b) (eqb a b)).

  Lemma hm_get_insert (k k' : K) (v : V) m :
    hm_get eqb k' (hm_insert eqb k v m) = if eqb k' k then Some v else hm_get eqb k' m.
  Proof.
    induction m as [|[k0 v0] m IH]; simpl; [reflexivity|].
    destruct (eqb_spec k k0) as [->|Hn]; simpl.
    - destruct (eqb_spec k' k0); reflexivity.
    - rewrite IH. destruct (eqb_spec k' k0) as [->|Hn']; [|reflexivity].
      destruct (eqb_spec k0 k); congruence.
  Qed.

  Lemma hm_insert_get (k : K) (v : V) m :
    NoDup (map fst m) -> NoDup (map fst (hm_insert eqb k v m)).
  Proof.
    induction m as [|[k0 v0] m IH]; simpl; intros Hnd.
    - constructor; [easy|constructor].
    - inversion Hnd as [|? ? Hni Hnd']; subst.
      destruct (eqb_spec k k0) as [->|Hn]; simpl; [now constructor|].
      constructor; [|now apply IH].
      intros Hin. apply Hni. clear -Hin Hn eqb_spec.
      induction m as [|[k1 v1] m IH]; simpl in *.
      + destruct Hin as [->|[]]. contradiction.
      + destruct (eqb_spec k k1) as [->|Hn1]; simpl in *; intuition congruence.
  Qed.

  Lemma hm_insert_length (k : K) (v : V) m :
    length (hm_insert eqb k v m) = if hm_contains eqb k m then length m else S (length m).
  Proof.
    unfold hm_contains. induction m as [|[k0 v0] m IH]; simpl; [reflexivity|].
    destruct (eqb_spec k k0) as [->|Hn]; simpl; [reflexivity|].
    rewrite IH. now destruct (hm_get eqb k m).
  Qed.

  Lemma hm_get_In (k : K) (v : V) m : hm_get eqb k m = Some v -> In (k, v) m.
  Proof.
    induction m as [|[k0 v0] m IH]; simpl; [discriminate|].
    destruct (eqb_spec k k0) as [->|Hn]; [injection 1 as ->; now left|].
    intros H. right. now apply IH.
  Qed.

  Lemma hm_get_None (k : K) (m : list (K * V)) : hm_get eqb k m = None <-> ~ In k (map fst m).
  Proof.
    induction m as [|[k0 v0] m IH]; simpl; [tauto|].
    destruct (eqb_spec k k0) as [->|Hn]; [split; [discriminate|tauto]|].
    rewrite IH. intuition congruence.
  Qed.

  Lemma hm_In_get (k : K) (v : V) m : NoDup (map fst m) -> In (k, v) m -> hm_get eqb k m = Some v.
  Proof.
    induction m as [|[k0 v0] m IH]; simpl; intros Hnd Hin; [easy|].
    inversion Hnd as [|? ? Hni Hnd']; subst.
    destruct Hin as [[= -> ->]|Hin].
    - destruct (eqb_spec k k); congruence.
    - destruct (eqb_spec k k0) as [->|Hn]; [|now apply IH].
      exfalso. apply Hni. apply in_map_iff. now exists (k0, v).
  Qed.
End HashMapFacts.

Lemma length_update {A} (l : list A) i a : length (update l i a) = length l.
Proof. revert i; induction l as [|x l IH]; intros [|i]; simpl; auto. Qed.

Lemma nth_error_update {A} (l : list A) i a j :
  nth_error (update l i a) j =
  if (j =? i) && (i <? length l) then Some a else nth_error l j.
Proof.
  revert i j; induction l as [|x l IH]; intros [|i] [|j]; simpl; auto.
  - now rewrite Bool.andb_false_r.
  - rewrite IH. now replace (S i <? S (length l)) with (i <? length l) by reflexivity.
Qed.

Lemma nth_update {A} (l : list A) i a j d :
  i < length l -> nth j (update l i a) d = if j =? i then a else nth j l d.
Proof.
  revert i j; induction l as [|x l IH]; intros [|i] [|j]; simpl; intros H; try lia; auto.
  apply IH. lia.
Qed.

Lemma index_nth {A} (l : list A) i d : i < length l -> index l i = Ok (nth i l d).
Proof.
  intros H. unfold index. destruct (nth_error l i) eqn:E.
  - now rewrite (nth_error_nth _ _ d E).
  - apply nth_error_None in E. lia.
Qed.

Lemma store_ok {A} (l : list A) i a : i < length l -> store l i a = Ok (update l i a).
Proof. intros H. unfold store. apply Nat.ltb_lt in H. now rewrite H. Qed.

Lemma as_u32_small n : (N.of_nat n < 2 ^ 32)%N -> as_u32 n = N.of_nat n.
Proof. intros H. unfold as_u32. now apply N.mod_small. Qed.

Lemma u32_add_small a b : (a + b < 2 ^ 32)%N -> u32_add a b = (a + b)%N.
Proof. intros H. unfold u32_add. now apply N.mod_small. Qed.

Lemma skipn_skipn' {A} (l : list A) i j : skipn i (skipn j l) = skipn (j + i) l.
Proof.
  revert j; induction l as [|x l IH]; intros [|j]; simpl; auto.
  - now rewrite !skipn_nil.
Qed.

Lemma firstn_skipn_split {A} (l : list A) i j :
  firstn (i + j) l = firstn i l ++ firstn j (skipn i l).
Proof.
  revert i; induction l as [|x l IH]; intros [|i]; simpl; auto.
  - now rewrite firstn_nil.
  - now rewrite IH.
Qed.

Lemma flat_map_ext_in' {A B} (f g : A -> list B) l :
  (forall x, In x l -> f x = g x) -> flat_map f l = flat_map g l.
Proof.
  induction l as [|x l IH]; intros H; simpl; [reflexivity|].
  rewrite (H x) by now left. f_equal. apply IH. intros; apply H; now right.
Qed.
