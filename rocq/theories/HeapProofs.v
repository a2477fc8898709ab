(** Lemmas on [BinaryHeap]. *)
From Coq Require Import Permutation Lia.
From Verif Require Import Base BaseProofs Heap.
Set Implicit Arguments.
Local Ltac splits := repeat match goal with |- _ /\ _ => split end.

Definition par (i : nat) : nat := (i - 1) / 2.
Lemma par_spec i : 0 < i -> i = 2 * par i + 1 \/ i = 2 * par i + 2.
Proof. intros H. unfold par. assert (H1 := Nat.div_mod (i - 1) 2 ltac:(lia)). assert (H2 := Nat.mod_upper_bound (i - 1) 2 ltac:(lia)). lia. Qed.
Lemma par_lt i : 0 < i -> par i < i.
Proof. intros H. apply par_spec in H. lia. Qed.
Lemma par_left p : par (2 * p + 1) = p.
Proof. assert (H := @par_spec (2 * p + 1) ltac:(lia)). lia. Qed.
Lemma par_right p : par (2 * p + 1 + 1) = p.
Proof. assert (H := @par_spec (2 * p + 1 + 1) ltac:(lia)). lia. Qed.

Section Lists.
  Context {T : Type}.
  Lemma upd_length (l : list T) i a : length (update l i a) = length l.
  Proof. revert i. induction l as [|x l IH]; intros [|i]; simpl; auto. Qed.
  Lemma upd_same (l : list T) i a : i < length l -> nth_error (update l i a) i = Some a.
  Proof. revert i. induction l as [|x l IH]; intros [|i] H; simpl in *; auto; try lia. apply IH. lia. Qed.
  Lemma upd_other (l : list T) i j a : i <> j -> nth_error (update l i a) j = nth_error l j.
  Proof. revert i j. induction l as [|x l IH]; intros [|i] [|j] H; simpl; auto; try congruence. Qed.
  Lemma upd_twice (l : list T) i a b : update (update l i a) i b = update l i b.
  Proof. revert i. induction l as [|x l IH]; intros [|i]; simpl; auto. now rewrite IH. Qed.
  Lemma upd_comm (l : list T) i j a b : i <> j -> update (update l i a) j b = update (update l j b) i a.
  Proof. revert i j. induction l as [|x l IH]; intros [|i] [|j] H; simpl; auto; try congruence. f_equal. auto. Qed.
  Lemma upd_id (l : list T) i a : nth_error l i = Some a -> update l i a = l.
  Proof. revert i. induction l as [|x l IH]; intros [|i] H; simpl in *; try discriminate; [congruence|]. f_equal. auto. Qed.
  Lemma upd_perm (l : list T) j a b : nth_error l j = Some b -> Permutation (b :: update l j a) (a :: l).
  Proof.
    revert j. induction l as [|x l IH]; intros [|j] H; simpl in *; try discriminate.
    - injection H as ->. apply perm_swap.
    - rewrite perm_swap, (IH _ H), perm_swap. reflexivity.
  Qed.
  Lemma upd_swap (l : list T) i j a b : i <> j -> nth_error l i = Some a -> nth_error l j = Some b -> Permutation (update (update l i b) j a) l.
  Proof.
    revert i j. induction l as [|x l IH]; intros [|i] [|j] Hij H1 H2; simpl in *; try discriminate; try congruence.
    - injection H1 as ->. exact (upd_perm _ _ _ H2).
    - injection H2 as ->. exact (upd_perm _ _ _ H1).
    - apply perm_skip. apply IH; auto.
  Qed.
  (** The element [elt] of the hole moves from [i] to [j]. *)
  Lemma hole_moves (l : list T) i j elt b : i <> j -> i < length l -> nth_error l j = Some b ->
    Permutation (update (update l i b) j elt) (update l i elt).
  Proof.
    intros Hij Hi Hj. rewrite <- (upd_twice l i elt b). apply upd_swap; auto.
    - now apply upd_same.
    - now rewrite upd_other.
  Qed.
  Lemma nth_lt (l : list T) i : i < length l -> exists a, nth_error l i = Some a.
  Proof. intros H. destruct (nth_error l i) eqn:E; [eauto|]. apply nth_error_None in E. lia. Qed.
End Lists.

Section Heap.
  Variable T : Type.
  Variable less : T -> T -> bool.
  (** Which elements can be compared. *)
  Definition Ordered (l : list T) : Prop :=
    (forall x y, In x l -> In y l -> less x y = true -> less y x = false) /\
    (forall x y z, In x l -> In y l -> In z l -> less x y = false -> less y z = false -> less x z = false).
  Lemma Ordered_incl l l' : incl l' l -> Ordered l -> Ordered l'.
  Proof. intros Hi [H1 H2]. split; [intros x y Hx Hy; apply H1; auto|intros x y z Hx Hy Hz; apply H2; auto]. Qed.
  Lemma Ordered_perm l l' : Permutation l l' -> Ordered l -> Ordered l'.
  Proof. intros HP. apply Ordered_incl. intros x Hx. eapply Permutation_in; [symmetry; exact HP|exact Hx]. Qed.

  Definition fine (d : list T) (i : nat) : Prop := forall p x, nth_error d (par i) = Some p -> nth_error d i = Some x -> less p x = false.
  Definition heap (d : list T) : Prop := forall i, 0 < i -> fine d i.
  (** The parent of [pos] may be less than [pos]. *)
  Definition up_inv (d : list T) (pos : nat) : Prop :=
    (forall i, 0 < i -> i <> pos -> fine d i) /\
    (0 < pos -> forall c p x, 0 < c -> par c = pos -> nth_error d (par pos) = Some p -> nth_error d c = Some x -> less p x = false).
  (** [pos] may be anything. *)
  Definition down_inv (d : list T) (pos : nat) : Prop :=
    (forall i, 0 < i -> i <> pos -> par i <> pos -> fine d i) /\
    (0 < pos -> forall c p x, 0 < c -> par c = pos -> nth_error d (par pos) = Some p -> nth_error d c = Some x -> less p x = false).

  Lemma sift_up_loop_spec fuel : forall data elt pos, pos <= fuel -> pos < length data ->
    exists data' pos', sift_up_loop less fuel data elt 0 pos = Ok (data', pos') /\ length data' = length data /\ pos' < length data /\
      Permutation (update data' pos' elt) (update data pos elt) /\
      (Ordered (update data pos elt) -> up_inv (update data pos elt) pos -> heap (update data' pos' elt)).
  Proof.
    induction fuel as [|fuel IH]; intros data elt pos Hf Hp; cbn [sift_up_loop].
    - exists data, pos. splits; auto. intros _ [H1 _] i Hi. apply H1; lia.
    - destruct (Nat.leb_spec pos 0) as [H0|H0].
      + exists data, pos. splits; auto. intros _ [H1 _] i Hi. apply H1; lia.
      + assert (Hpl := par_lt H0). cbv zeta. change ((pos - 1) / 2) with (par pos). destruct (@nth_lt _ data (par pos) ltac:(lia)) as [p Ep]. unfold index at 1. rewrite Ep. cbn [bind].
        assert (Epos : nth_error (update data pos elt) pos = Some elt) by now apply upd_same.
        assert (Epar : nth_error (update data pos elt) (par pos) = Some p) by (rewrite upd_other by lia; exact Ep).
        assert (Hin : forall i x, nth_error (update data pos elt) i = Some x -> In x (update data pos elt)) by (intros i x; apply nth_error_In).
        unfold heap_le. destruct (less elt p) eqn:El.
        * exists data, pos. splits; auto. intros [HO1 HO2] [H1 _] i Hi. destruct (Nat.eq_dec i pos) as [->|Hne]; [|apply H1; auto].
          intros p' x' E1 E2. rewrite Epar in E1. rewrite Epos in E2. injection E1 as <-. injection E2 as <-. apply HO1; eauto.
        * rewrite store_ok by exact Hp. cbn [bind].
          destruct (IH (update data pos p) elt (par pos)) as (data' & pos' & E & El' & Hp' & HP & HH); [lia|rewrite upd_length; lia|].
          rewrite upd_length in El', Hp'. exists data', pos'. rewrite E. splits; auto.
          -- rewrite HP. apply hole_moves; auto. lia.
          -- intros HO [H1 H2]. apply HH.
             { eapply Ordered_perm; [symmetry; apply hole_moves; eauto; lia|exact HO]. }
             set (D := update data pos elt) in *. set (D' := update (update data pos p) (par pos) elt).
             assert (Dpar : nth_error D' (par pos) = Some elt) by (apply upd_same; rewrite upd_length; lia).
             assert (Dpos : nth_error D' pos = Some p) by (unfold D'; rewrite upd_other by lia; now apply upd_same).
             assert (Doth : forall j, j <> pos -> j <> par pos -> nth_error D' j = nth_error D j).
             { intros j Hj1 Hj2. unfold D', D. now rewrite !upd_other by congruence. }
             destruct HO as [HO1 HO2].
             split.
             ++ intros i Hi Hne q x Eq Ex. destruct (Nat.eq_dec i pos) as [->|Hi2].
                { rewrite Dpar in Eq. rewrite Dpos in Ex. congruence. }
                destruct (Nat.eq_dec (par i) (par pos)) as [Hs|Hs].
                { rewrite Hs, Dpar in Eq. injection Eq as <-. rewrite Doth in Ex by auto. apply (HO2 elt p x); eauto.
                  apply (H1 i Hi Hi2); auto. now rewrite Hs. }
                destruct (Nat.eq_dec (par i) pos) as [Hs2|Hs2].
                { rewrite Hs2, Dpos in Eq. injection Eq as <-. rewrite Doth in Ex by auto. apply (H2 H0 i p x Hi Hs2); auto. }
                rewrite Doth in Eq by auto. rewrite Doth in Ex by auto. exact (H1 i Hi Hi2 q x Eq Ex).
             ++ intros Hq c q x Hc Hcp Eq Ex. assert (Hql := par_lt Hq). rewrite Doth in Eq by lia.
                assert (Hqp : less q p = false) by (apply (H1 (par pos) Hq); auto; lia).
                destruct (Nat.eq_dec c pos) as [->|Hcn]; [rewrite Dpos in Ex; congruence|]. assert (Hcl := par_lt Hc).
                rewrite Doth in Ex by lia. apply (HO2 q p x); eauto. apply (H1 c Hc Hcn); auto. now rewrite Hcp.
  Qed.
  Lemma sift_up_spec data pos : pos < length data -> exists data', sift_up less data 0 pos = Ok data' /\ Permutation data' data /\
    (Ordered data -> up_inv data pos -> heap data').
  Proof.
    intros Hp. destruct (nth_lt _ Hp) as [elt Ee]. unfold sift_up, index at 1. rewrite Ee. cbn [bind].
    destruct (@sift_up_loop_spec pos data elt pos (le_n _) Hp) as (data' & pos' & E & El & Hp' & HP & HH). rewrite E. cbn [bind].
    rewrite store_ok by lia. rewrite (upd_id _ _ Ee) in HP, HH. eauto.
  Qed.
  Lemma push_spec data x : exists data', heap_push less data x = Ok data' /\ Permutation data' (x :: data) /\ (Ordered (x :: data) -> heap data -> heap data').
  Proof.
    unfold heap_push. destruct (@sift_up_spec (data ++ [x]) (length data)) as (data' & E & HP & HH); [rewrite app_length; simpl; lia|].
    exists data'. splits; auto.
    - rewrite HP. symmetry. apply Permutation_cons_append.
    - intros HO Hh. apply HH.
      + eapply Ordered_perm; [apply Permutation_cons_append|exact HO].
      + assert (Hn : forall i y, nth_error (data ++ [x]) i = Some y -> i <= length data).
        { intros i y E1. assert (i < length (data ++ [x])) by (apply nth_error_Some; congruence). rewrite app_length in *. simpl in *. lia. }
        split.
        * intros i Hi Hne p y Ep Ey. assert (Hil := Hn _ _ Ey). assert (Hpl := par_lt Hi). rewrite nth_error_app1 in Ep, Ey by lia. exact (Hh i Hi p y Ep Ey).
        * intros Hp c p y Hc Hcp Ep Ey. assert (Hcl := Hn _ _ Ey). assert (Hpl := par_lt Hc). lia.
  Qed.

  Lemma sift_down_loop_spec fuel : forall data elt pos, length data - pos <= fuel -> pos < length data ->
    exists data' pos', sift_down_loop less fuel data pos = Ok (data', pos') /\ length data' = length data /\ pos' < length data /\
      Permutation (update data' pos' elt) (update data pos elt) /\
      (Ordered (update data pos elt) -> down_inv (update data pos elt) pos -> up_inv (update data' pos' elt) pos').
  Proof.
    induction fuel as [|fuel IH]; intros data elt pos Hf Hp; [lia|]. cbn [sift_down_loop].
    (* moving the hole to the greater child [k] *)
    assert (Hmove : forall k c, 0 < k -> par k = pos -> nth_error data k = Some c ->
      (forall s y, 0 < s -> par s = pos -> s <> k -> nth_error data s = Some y -> less c y = false) ->
      Permutation (update (update data pos c) k elt) (update data pos elt) /\
      (Ordered (update data pos elt) -> down_inv (update data pos elt) pos -> down_inv (update (update data pos c) k elt) k)).
    { intros k c Hk Hkp Ec Hbest. assert (Hkl := par_lt Hk). assert (Hk2 : k < length data) by (apply nth_error_Some; congruence).
      split; [apply hole_moves; auto; lia|]. intros HO [H1 H2].
      set (D := update data pos elt) in *. set (D' := update (update data pos c) k elt).
      assert (Dk : nth_error D' k = Some elt) by (apply upd_same; rewrite upd_length; lia).
      assert (Dpos : nth_error D' pos = Some c) by (unfold D'; rewrite upd_other by lia; now apply upd_same).
      assert (Doth : forall j, j <> pos -> j <> k -> nth_error D' j = nth_error D j).
      { intros j Hj1 Hj2. unfold D', D. now rewrite !upd_other by congruence. }
      assert (DD : forall j, j <> pos -> nth_error D j = nth_error data j) by (intros j Hj; unfold D; now rewrite upd_other by congruence).
      split.
      - intros i Hi Hne Hpn p x Ep Ex. destruct (Nat.eq_dec i pos) as [->|Hi2].
        { rewrite Dpos in Ex. injection Ex as <-. assert (Hl := par_lt Hi). rewrite Doth in Ep by lia. apply (H2 Hi k p c Hk Hkp Ep). rewrite DD by lia. exact Ec. }
        rewrite Doth in Ex by auto. destruct (Nat.eq_dec (par i) pos) as [Hs|Hs].
        { rewrite Hs, Dpos in Ep. injection Ep as <-. rewrite DD in Ex by auto. apply (Hbest i x Hi Hs Hne Ex). }
        rewrite Doth in Ep by auto. exact (H1 i Hi Hi2 Hs p x Ep Ex).
      - intros _ ch p x Hc Hcp Ep Ex. rewrite Hkp, Dpos in Ep. injection Ep as <-. assert (Hcl := par_lt Hc).
        rewrite Doth in Ex by lia. apply (H1 ch Hc) with (p := c) (x := x); try lia; auto. rewrite Hcp, DD by lia. exact Ec. }
    destruct (Nat.leb_spec (2 * pos + 1) (length data - 2)) as [Hc|Hc].
    - assert (Hl : 2 * pos + 1 + 1 < length data) by lia.
      destruct (@nth_lt _ data (2 * pos + 1) ltac:(lia)) as [a Ea]. destruct (nth_lt _ Hl) as [b Eb]. unfold index at 1 2. rewrite Ea, Eb. cbn [bind].
      set (k := if heap_le less a b then 2 * pos + 1 + 1 else 2 * pos + 1).
      assert (Hk : k = 2 * pos + 1 \/ k = 2 * pos + 1 + 1) by (unfold k; destruct (heap_le less a b); auto).
      assert (Hkp : par k = pos) by (destruct Hk as [-> | ->]; [apply par_left|apply par_right]).
      destruct (@nth_lt _ data k ltac:(lia)) as [c Ec]. unfold index. rewrite Ec. cbn [bind]. rewrite store_ok by exact Hp. cbn [bind].
      destruct (IH (update data pos c) elt k) as (data' & pos' & E & El & Hp' & HP & HH); [rewrite upd_length; lia|rewrite upd_length; lia|].
      rewrite upd_length in El, Hp'. exists data', pos'. rewrite E.
      assert (HM : Ordered (update data pos elt) -> forall s y, 0 < s -> par s = pos -> s <> k -> nth_error data s = Some y -> less c y = false).
      { intros [HO1 _] s y Hs Hsp Hsk Ey. assert (Hs2 : s = 2 * pos + 1 \/ s = 2 * pos + 1 + 1) by (apply par_spec in Hs; lia).
        assert (Hia : In a (update data pos elt)) by (apply (nth_error_In _ (2 * pos + 1)); rewrite upd_other by lia; exact Ea).
        assert (Hib : In b (update data pos elt)) by (apply (nth_error_In _ (2 * pos + 1 + 1)); rewrite upd_other by lia; exact Eb).
        unfold k, heap_le in *. destruct (less a b) eqn:El2.
        - assert (s = 2 * pos + 1) by lia. subst s. rewrite Eb in Ec. rewrite Ea in Ey. injection Ec as <-. injection Ey as <-. now apply HO1.
        - assert (s = 2 * pos + 1 + 1) by lia. subst s. rewrite Ea in Ec. rewrite Eb in Ey. injection Ec as <-. injection Ey as <-. exact El2. }
      splits; auto.
      + rewrite HP. apply hole_moves; auto. lia.
      + intros HO HD. destruct (Hmove k c ltac:(lia) Hkp Ec (HM HO)) as [HP2 HI]. apply HH; [|auto]. eapply Ordered_perm; [symmetry; exact HP2|exact HO].
    - assert (Hend : forall D k, length D = length data -> length data - 1 <= 2 * pos + 1 -> (k = 2 * pos + 1 /\ k = length data - 1 \/ k = pos /\ length data <= 2 * pos + 1) -> down_inv D k -> up_inv D k).
      { intros D k HlD Hlen Hk [H1 H2]. assert (Hnc : forall c x, 0 < c -> par c = k -> nth_error D c = Some x -> False).
        { intros c x Hc0 Hcp Ex. assert (c < length D) by (apply nth_error_Some; congruence). apply par_spec in Hc0. lia. }
        split.
        - intros i Hi Hne p x Ep Ex. destruct (Nat.eq_dec (par i) k) as [Hs|Hs]; [exfalso; eapply Hnc; eauto|]. exact (H1 i Hi Hne Hs p x Ep Ex).
        - intros _ c p x Hc0 Hcp _ Ex. exfalso. eapply Hnc; eauto. }
      destruct (Nat.eqb_spec (2 * pos + 1) (length data - 1)) as [Heq|Hne].
      + destruct (@nth_lt _ data (2 * pos + 1) ltac:(lia)) as [c Ec]. unfold index. rewrite Ec. cbn [bind]. rewrite store_ok by exact Hp. cbn [bind].
        exists (update data pos c), (2 * pos + 1). rewrite upd_length. destruct (Hmove (2 * pos + 1) c) as [HP HI]; [lia|apply par_left|exact Ec| |].
        { intros s y Hs Hsp Hsk Ey. exfalso. assert (s < length data) by (apply nth_error_Some; congruence). apply par_spec in Hs. lia. }
        splits; auto; [lia|]. intros HO HD. apply Hend; auto; try lia. now rewrite !upd_length.
      + exists data, pos. splits; auto. intros HO HD. apply Hend; auto; try lia. now rewrite upd_length.
  Qed.
  Lemma sift_down_spec data : 0 < length data -> exists data', sift_down_to_bottom less data 0 = Ok data' /\ Permutation data' data /\
    (Ordered data -> down_inv data 0 -> heap data').
  Proof.
    intros Hp. destruct (nth_lt _ Hp) as [elt Ee]. unfold sift_down_to_bottom, index at 1. rewrite Ee. cbn [bind].
    destruct (@sift_down_loop_spec (length data) data elt 0 ltac:(lia) Hp) as (data' & pos' & E & El & Hp' & HP & HH). rewrite E. cbn [bind].
    rewrite store_ok by lia. cbn [bind]. rewrite (upd_id _ _ Ee) in HP, HH.
    destruct (@sift_up_spec (update data' pos' elt) pos') as (d2 & E2 & HP2 & HH2); [rewrite upd_length; lia|].
    exists d2. splits; auto; [now rewrite HP2|]. intros HO HD. apply HH2; auto. eapply Ordered_perm; [symmetry; exact HP|exact HO].
  Qed.

  Lemma heap_top data top rest : Ordered data -> heap data -> data = top :: rest -> forall x, In x data -> less top x = false.
  Proof.
    intros HO Hh -> x Hx. apply In_nth_error in Hx as [i Ei]. revert x Ei. induction i as [i IH] using lt_wf_ind. intros x Ei.
    destruct HO as [HO1 HO2]. destruct (Nat.eq_dec i 0) as [->|Hi].
    - simpl in Ei. injection Ei as <-. destruct (less top top) eqn:E; [|reflexivity]. assert (E2 := HO1 top top ltac:(simpl; auto) ltac:(simpl; auto) E). congruence.
    - assert (H0 : 0 < i) by lia. assert (Hl := par_lt H0). assert (i < length (top :: rest)) by (apply nth_error_Some; congruence).
      destruct (@nth_lt _ (top :: rest) (par i) ltac:(lia)) as [p Ep]. apply (HO2 top p x); [now left|eapply nth_error_In; eauto|eapply nth_error_In; eauto| |].
      + eapply IH; eauto.
      + exact (Hh i H0 p x Ep Ei).
  Qed.
  Lemma pop_spec data : (data = [] /\ heap_pop less data = Ok None) \/
    exists top rest data', data = top :: rest /\ heap_pop less data = Ok (Some (top, data')) /\ Permutation data' rest /\ (Ordered data -> heap data -> heap data').
  Proof.
    unfold heap_pop. destruct (rev data) as [|item rr] eqn:Er.
    - left. split; [|reflexivity]. apply (f_equal (@rev T)) in Er. now rewrite rev_involutive in Er.
    - right. apply (f_equal (@rev T)) in Er. rewrite rev_involutive in Er. simpl in Er. destruct (rev rr) as [|top rest] eqn:Err.
      + simpl in Er. exists item, [], []. splits; auto. intros _ _ i Hi p x _ Ex. destruct i; discriminate.
      + destruct (@sift_down_spec (item :: rest)) as (d' & E & HP & HH); [simpl; lia|]. rewrite E. cbn [bind].
        exists top, (rest ++ [item]), d'. splits; auto.
        * rewrite HP. apply Permutation_cons_append.
        * intros HO Hh. apply HH.
          { eapply Ordered_incl; [|exact HO]. rewrite Er. intros x Hx. simpl. right. apply in_or_app. destruct Hx as [<-|Hx]; simpl; auto. }
          assert (Hsame : forall i x, i <> 0 -> nth_error (item :: rest) i = Some x -> nth_error data i = Some x).
          { intros [|i] x Hi Ex; [lia|]. rewrite Er. simpl in Ex |- *. rewrite nth_error_app1; auto. apply nth_error_Some. congruence. }
          split; [|lia]. intros i Hi _ Hpn p x Ep Ex. apply (Hh i Hi); apply Hsame; auto; lia.
  Qed.
End Heap.
