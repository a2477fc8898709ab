(** The marginals in exact arithmetic. *)
From Coq Require Import Reals Lra Permutation Sorted.
From Verif Require Import Base F64 Trie Model BaseProofs Lattice SpecLattice LatticeProofs PopulateProofs RealArith NbestProofs NbestExact SpecMarginal.
Set Implicit Arguments.
Local Open Scope nat_scope.

(** * Sums *)
Section Sums.
  Context {X : Type}.
  Implicit Types (f g : X -> R) (L : list X).
  Lemma sum_nil f : sum f [] = 0%R.
  Proof. reflexivity. Qed.
  Lemma sum_cons f x L : sum f (x :: L) = (f x + sum f L)%R.
  Proof. reflexivity. Qed.
  Lemma sum_app f L M : sum f (L ++ M) = (sum f L + sum f M)%R.
  Proof. induction L as [|x L IH]; [rewrite sum_nil; simpl; lra|]. simpl app. rewrite !sum_cons, IH. lra. Qed.
  Lemma sum_perm f L M : Permutation L M -> sum f L = sum f M.
  Proof. induction 1 as [|x L M H IH|x y L|L M N H1 IH1 H2 IH2]; rewrite ?sum_cons in *; try lra. Qed.
  Lemma sum_ext f g L : (forall x, In x L -> f x = g x) -> sum f L = sum g L.
  Proof. induction L as [|x L IH]; intros H; [reflexivity|]. rewrite !sum_cons, IH, H; auto; [now left|]. intros y Hy. apply H. now right. Qed.
  Lemma sum_scal f L c : sum (fun x => (c * f x)%R) L = (c * sum f L)%R.
  Proof. induction L as [|x L IH]; [rewrite !sum_nil; lra|]. rewrite !sum_cons, IH. lra. Qed.
  Lemma sum_plus f g L : sum (fun x => (f x + g x)%R) L = (sum f L + sum g L)%R.
  Proof. induction L as [|x L IH]; [rewrite !sum_nil; lra|]. rewrite !sum_cons, IH. lra. Qed.
  Lemma sum_pos f L : (forall x, In x L -> (0 < f x)%R) -> L <> [] -> (0 < sum f L)%R.
  Proof.
    intros H HL. destruct L as [|x L]; [congruence|]. clear HL. revert x H. induction L as [|y L IH]; intros x H; rewrite sum_cons.
    - rewrite sum_nil. assert (Hx := H x (or_introl eq_refl)). lra.
    - assert (Hx := H x (or_introl eq_refl)). specialize (IH y (fun z Hz => H z (or_intror Hz))). lra.
  Qed.
  Lemma sum_nonneg f L : (forall x, In x L -> (0 <= f x)%R) -> (0 <= sum f L)%R.
  Proof. induction L as [|x L IH]; intros H; [rewrite sum_nil; lra|]. rewrite sum_cons. assert (Hx := H x (or_introl eq_refl)). specialize (IH (fun z Hz => H z (or_intror Hz))). lra. Qed.
  Lemma sum_le f g L : (forall x, In x L -> (f x <= g x)%R) -> (sum f L <= sum g L)%R.
  Proof. induction L as [|x L IH]; intros H; [rewrite !sum_nil; lra|]. rewrite !sum_cons. assert (Hx := H x (or_introl eq_refl)). specialize (IH (fun z Hz => H z (or_intror Hz))). lra. Qed.
End Sums.
Section Sums2.
  Context {X : Type}.
  Implicit Types (f g : X -> R) (L : list X).
  Lemma sum_map {Y} (h : Y -> X) f (L : list Y) : sum f (map h L) = sum (fun y => f (h y)) L.
  Proof. unfold sum. now rewrite map_map. Qed.
  Lemma sum_flat_map {Y} (h : Y -> list X) f (L : list Y) : sum f (flat_map h L) = sum (fun y => sum f (h y)) L.
  Proof. induction L as [|y L IH]; [reflexivity|]. cbn [flat_map]. now rewrite sum_app, sum_cons, IH. Qed.
  Lemma sum_swap {Y} (f : X -> Y -> R) L (M : list Y) : sum (fun x => sum (f x) M) L = sum (fun y => sum (fun x => f x y) L) M.
  Proof.
    induction L as [|x L IH].
    - rewrite sum_nil. induction M as [|y M IHM]; [reflexivity|]. now rewrite sum_cons, <- IHM, sum_nil, Rplus_0_l.
    - rewrite sum_cons, IH, <- sum_plus. apply sum_ext. intros y _. now rewrite sum_cons.
  Qed.
  Lemma sum_filter f (b : X -> bool) L : sum f (filter b L) = sum (fun x => if b x then f x else 0%R) L.
  Proof. induction L as [|x L IH]; [reflexivity|]. cbn [filter]. rewrite sum_cons, <- IH. destruct (b x); [reflexivity|lra]. Qed.
End Sums2.
Lemma enum_sum L M P (f : list nat -> R) : enumerates L P -> enumerates M P -> sum f L = sum f M.
Proof. intros [H1 H2] [H3 H4]. apply sum_perm, NoDup_Permutation; auto. intros ks. now rewrite H2, H4. Qed.

(** * The error of the cut-off *)
Definition delta : R := (1 + epsilon)%R.
Definition approx (k : nat) (x y : R) : Prop := (0 < x /\ x <= y /\ y <= x * delta ^ k)%R.

Lemma epsilon_pos : (0 < epsilon)%R.
Proof. apply exp_pos. Qed.
Lemma delta_ge : (1 <= delta)%R.
Proof. unfold delta. assert (H := epsilon_pos). lra. Qed.
Lemma delta_pow k : (1 <= delta ^ k)%R.
Proof. apply pow_R1_Rle, delta_ge. Qed.
Lemma delta_mono j k : j <= k -> (delta ^ j <= delta ^ k)%R.
Proof. intros H. apply Rle_pow; [apply delta_ge|exact H]. Qed.
Lemma delta_exp k : (delta ^ k <= exp (INR k * epsilon))%R.
Proof.
  induction k as [|k IH]; [simpl; rewrite Rmult_0_l, exp_0; lra|]. rewrite S_INR, Rmult_plus_distr_r, exp_plus, Rmult_1_l. simpl. rewrite Rmult_comm.
  apply Rmult_le_compat; auto; [|assert (H := delta_ge); lra|].
  - assert (H := delta_pow k). lra.
  - unfold delta. assert (H := exp_ineq1 epsilon). assert (H2 := epsilon_pos). lra.
Qed.

Lemma approx_refl x : (0 < x)%R -> approx 0 x x.
Proof. unfold approx. simpl. lra. Qed.
Lemma approx_weaken j k x y : j <= k -> approx j x y -> approx k x y.
Proof. intros H (H1 & H2 & H3). unfold approx. splits; auto. apply (Rle_trans _ _ _ H3). apply Rmult_le_compat_l; [lra|now apply delta_mono]. Qed.
Lemma approx_trans j k x y z : approx j x y -> approx k y z -> approx (j + k) x z.
Proof.
  intros (H1 & H2 & H3) (H4 & H5 & H6). unfold approx. split; [exact H1|]. split; [lra|]. rewrite pow_add, <- Rmult_assoc.
  apply (Rle_trans _ _ _ H6). apply Rmult_le_compat_r; [|exact H3]. assert (H := delta_pow k). lra.
Qed.
Lemma approx_add k x y x' y' : approx k x y -> approx k x' y' -> approx k (x + x') (y + y').
Proof. unfold approx. intros (H1 & H2 & H3) (H4 & H5 & H6). rewrite Rmult_plus_distr_r. lra. Qed.
Lemma approx_scal k w x y : (0 < w)%R -> approx k x y -> approx k (w * x) (w * y).
Proof.
  intros Hw (H1 & H2 & H3). unfold approx. splits.
  - now apply Rmult_lt_0_compat.
  - apply Rmult_le_compat_l; lra.
  - rewrite Rmult_assoc. apply Rmult_le_compat_l; lra.
Qed.
Lemma approx_pos k x y : approx k x y -> (0 < y)%R.
Proof. unfold approx. lra. Qed.

Lemma log_sum_exp_init x y : log_sum_exp R_arith x y true = y.
Proof. reflexivity. Qed.
Lemma log_sum_exp_approx x y : approx 1 (exp (log_sum_exp R_arith x y false)) (exp x + exp y).
Proof.
  assert (H : forall a b, (a <= b)%R -> approx 1 (exp (if Rltb (a + 50) b then b else b + ln (exp (a - b) + 1))%R) (exp a + exp b)).
  { intros a b Hab. destruct (Rltb (a + 50) b) eqn:Ec.
    - apply Rltb_true in Ec. assert (Ha : (exp a <= exp b * epsilon)%R).
      { unfold epsilon. rewrite <- exp_plus. apply Rlt_le, exp_increasing. lra. }
      assert (Hb := exp_pos b). assert (Ha' := exp_pos a). unfold approx, delta. simpl. splits; lra.
    - assert (Ee : (exp (b + ln (exp (a - b) + 1)) = exp a + exp b)%R).
      { rewrite exp_plus, exp_ln by (assert (Hx := exp_pos (a - b)); lra). rewrite Rmult_plus_distr_l, <- exp_plus, Rmult_1_r. f_equal. f_equal. lra. }
      rewrite Ee. apply approx_weaken with 0; [lia|]. apply approx_refl. assert (Hb := exp_pos b). assert (Ha' := exp_pos a). lra. }
  unfold log_sum_exp. cbn [R_arith a_ltb a_add a_fifty a_ln a_exp a_sub a_one]. destruct (Rltb y x) eqn:Exy.
  - apply Rltb_true in Exy. rewrite (Rplus_comm (exp x)). apply H. lra.
  - apply Rltb_false in Exy. apply H. exact Exy.
Qed.

(** * Neighbours *)
Lemma nth_update_same {X} (L : list X) i x : i < length L -> nth_error (update L i x) i = Some x.
Proof. revert i. induction L as [|y L IH]; intros [|i] H; simpl in *; try lia; [reflexivity|]. apply IH. lia. Qed.
Lemma nth_update_other {X} (L : list X) i j x : j <> i -> nth_error (update L i x) j = nth_error L j.
Proof. revert i j. induction L as [|y L IH]; intros [|i] [|j] H; simpl; try reflexivity; [lia|]. apply IH. lia. Qed.
Lemma update_length {X} (L : list X) i x : length (update L i x) = length L.
Proof. revert i. induction L as [|y L IH]; intros [|i]; simpl; auto. Qed.

Section Neighbours.
  Variables (G : list (span R)) (nodes : list (node R)).
  Hypothesis HG : map span_of nodes = G.
  Local Notation sc := (score R_arith G).
  Local Notation A := R_arith.

  (** What [acc] says at [i]. *)
  Definition at_ (acc : list R) (i : nat) : R := nth i acc 0%R.
  Lemma at_error acc i : i < length acc -> nth_error acc i = Some (at_ acc i).
  Proof. intros H. apply nth_error_nth'. exact H. Qed.
  Lemma node_score o : o < length G -> exists n, nth_error nodes o = Some n /\ n_score n = sc o.
  Proof.
    intros Ho. destruct (nth_error_lt G Ho) as (e & He). destruct (nodes_at _ _ HG He) as (n & Hn & Hs). exists n. split; [exact Hn|]. unfold score. rewrite He, <- Hs. reflexivity.
  Qed.

  Lemma at_update_same (L : list R) i x : i < length L -> at_ (update L i x) i = x.
  Proof. intros H. unfold at_. apply nth_error_nth. now apply nth_update_same. Qed.
  Lemma at_update_other (L : list R) i j x : j <> i -> at_ (update L i x) j = at_ L j.
  Proof.
    intros Hj. unfold at_. destruct (Nat.lt_ge_cases j (length L)) as [Hl|Hl].
    - apply nth_error_nth. rewrite nth_update_other by exact Hj. now apply nth_error_nth'.
    - rewrite !nth_overflow; [reflexivity|exact Hl|now rewrite update_length].
  Qed.

  Definition added (acc acc' : list R) (is : list nat) : Prop := length acc' = length acc /\ forall j, ~ In j is -> nth_error acc' j = nth_error acc j.

  Lemma sum_rest first i : forall rest acc Y y, length acc = length G -> i < length G -> ~ In i rest -> ~ In first rest -> (forall o, In o rest -> o < length G) ->
    forall k m, approx m (exp (at_ acc i)) y -> (forall o, In o rest -> approx k (exp (at_ acc o)) (Y o)) -> k <= m ->
    exists acc', sum_neighbours A nodes first i rest acc = Ok acc' /\ added acc acc' [i] /\
      approx (m + length rest) (exp (at_ acc' i)) (y + sum (fun o => exp (sc o) * Y o)%R rest).
  Proof.
    induction rest as [|o rest IH]; intros acc Y y Hlen Hi Hni Hnf Hlt k m Hy HY Hkm.
    - exists acc. split; [reflexivity|]. split; [split; auto|]. rewrite sum_nil, Rplus_0_r. apply approx_weaken with m; [lia|exact Hy].
    - cbn [sum_neighbours]. rewrite (index_Some _ _ (@at_error acc i ltac:(lia))). cbn [bind].
      assert (Ho : o < length G) by (apply Hlt; now left). destruct (node_score Ho) as (n & Hn & Hs). rewrite (index_Some _ _ Hn). cbn [bind].
      rewrite (index_Some _ _ (@at_error acc o ltac:(lia))). cbn [bind]. rewrite Hs.
      assert (Ef : (o =? first) = false). { apply Nat.eqb_neq. intros ->. apply Hnf. now left. } rewrite Ef.
      unfold store. assert (Ei : (i <? length acc) = true) by (apply Nat.ltb_lt; lia). rewrite Ei. cbn [bind].
      set (v := log_sum_exp A (at_ acc i) (a_add A (sc o) (at_ acc o)) false). set (acc1 := update acc i v).
      assert (Hat : at_ acc1 i = v) by (unfold at_, acc1; apply nth_error_nth, nth_update_same; lia).
      assert (Hat' : forall j, j <> i -> at_ acc1 j = at_ acc j).
      { intros j Hj. unfold at_, acc1. destruct (Nat.lt_ge_cases j (length acc)) as [Hl|Hl].
        - apply nth_error_nth. rewrite nth_update_other by exact Hj. now apply nth_error_nth'.
        - rewrite !nth_overflow; [reflexivity|exact Hl|now rewrite update_length]. }
      destruct (IH acc1 Y (y + exp (sc o) * Y o)%R) with (k := k) (m := Datatypes.S m) as (acc' & HE & [HL HO] & HA).
      + unfold acc1. now rewrite update_length.
      + exact Hi.
      + intros H. apply Hni. now right.
      + intros H. apply Hnf. now right.
      + intros o' H. apply Hlt. now right.
      + rewrite Hat. unfold v. assert (HL := log_sum_exp_approx (at_ acc i) (sc o + at_ acc o)). rewrite exp_plus in HL.
        apply (approx_trans HL). apply approx_add; [exact Hy|]. apply approx_scal; [apply exp_pos|]. apply approx_weaken with k; [exact Hkm|]. apply HY. now left.
      + intros o' H. rewrite Hat'; [apply HY; now right|]. intros ->. apply Hni. now right.
      + lia.
      + exists acc'. split; [exact HE|]. split.
        * split; [rewrite HL; apply update_length|]. intros j Hj. rewrite HO by exact Hj. apply nth_update_other. intros ->. apply Hj. now left.
        * rewrite sum_cons. replace (m + length (o :: rest)) with (Datatypes.S m + length rest) by (simpl; lia).
          replace (y + (exp (sc o) * Y o + sum (fun o0 => exp (sc o0) * Y o0) rest))%R with (y + exp (sc o) * Y o + sum (fun o0 => exp (sc o0) * Y o0) rest)%R by lra. exact HA.
  Qed.

  Lemma sum_neighbours_spec first i rest acc Y k : length acc = length G -> i < length G -> ~ In i (first :: rest) -> NoDup (first :: rest) -> (forall o, In o (first :: rest) -> o < length G) ->
    (forall o, In o (first :: rest) -> approx k (exp (at_ acc o)) (Y o)) ->
    exists acc', sum_neighbours A nodes first i (first :: rest) acc = Ok acc' /\ added acc acc' [i] /\
      approx (k + length rest) (exp (at_ acc' i)) (sum (fun o => exp (sc o) * Y o)%R (first :: rest)).
  Proof.
    intros Hlen Hi Hni HN Hlt HY. cbn [sum_neighbours]. rewrite (index_Some _ _ (@at_error acc i ltac:(lia))). cbn [bind].
    assert (Ho : first < length G) by (apply Hlt; now left). destruct (node_score Ho) as (n & Hn & Hs). rewrite (index_Some _ _ Hn). cbn [bind].
    rewrite (index_Some _ _ (@at_error acc first ltac:(lia))). cbn [bind]. rewrite Hs, Nat.eqb_refl, log_sum_exp_init.
    unfold store. assert (Ei : (i <? length acc) = true) by (apply Nat.ltb_lt; lia). rewrite Ei. cbn [bind].
    set (v := a_add A (sc first) (at_ acc first)). set (acc1 := update acc i v).
    assert (Hat : at_ acc1 i = v) by (unfold at_, acc1; apply nth_error_nth, nth_update_same; lia).
    assert (Hat' : forall j, j <> i -> at_ acc1 j = at_ acc j).
    { intros j Hj. unfold at_, acc1. destruct (Nat.lt_ge_cases j (length acc)) as [Hl|Hl].
      - apply nth_error_nth. rewrite nth_update_other by exact Hj. now apply nth_error_nth'.
      - rewrite !nth_overflow; [reflexivity|exact Hl|now rewrite update_length]. }
    assert (Hnf : ~ In first rest) by (inversion HN; assumption).
    destruct (@sum_rest first i rest acc1 Y (exp (sc first) * Y first)%R) with (k := k) (m := k) as (acc' & HE & [HL HO] & HA); auto.
    - unfold acc1. now rewrite update_length.
    - intros H. apply Hni. now right.
    - intros o H. apply Hlt. now right.
    - rewrite Hat. unfold v. simpl. rewrite exp_plus. apply approx_scal; [apply exp_pos|]. apply HY. now left.
    - intros o H. rewrite Hat'; [apply HY; now right|]. intros ->. apply Hni. now right.
    - exists acc'. split; [exact HE|]. split; [|exact HA]. split; [rewrite HL; apply update_length|]. intros j Hj. rewrite HO by exact Hj. apply nth_update_other. intros ->. apply Hj. now left.
  Qed.

  Lemma added_at acc acc' is j : added acc acc' is -> ~ In j is -> at_ acc' j = at_ acc j.
  Proof.
    intros [HL HO] Hj. unfold at_. destruct (Nat.lt_ge_cases j (length acc)) as [Hl|Hl].
    - apply nth_error_nth. rewrite HO by exact Hj. now apply nth_error_nth'.
    - rewrite !nth_overflow; [reflexivity|exact Hl|now rewrite HL].
  Qed.

  Lemma sum_nodes_spec others Y k : others <> [] -> NoDup others -> (forall o, In o others -> o < length G) ->
    forall is acc, length acc = length G -> NoDup is -> (forall i, In i is -> i < length G /\ ~ In i others) ->
    (forall o, In o others -> approx k (exp (at_ acc o)) (Y o)) ->
    exists acc', sum_nodes A nodes others is acc = Ok acc' /\ added acc acc' is /\
      forall i, In i is -> approx (k + (length others - 1)) (exp (at_ acc' i)) (sum (fun o => exp (sc o) * Y o)%R others).
  Proof.
    intros Hn0 HN Hlt. destruct others as [|first rest]; [congruence|]. clear Hn0. induction is as [|i is IH]; intros acc Hlen HNi Hi HY.
    - exists acc. split; [reflexivity|]. split; [split; auto|]. intros i [].
    - cbn [sum_nodes]. destruct (Hi i (or_introl eq_refl)) as [Hi1 Hi2]. destruct (sum_neighbours_spec acc Y Hlen Hi1 Hi2 HN Hlt HY) as (acc1 & -> & H1 & H2). cbn [bind].
      assert (Hni : ~ In i is) by (inversion HNi; assumption). assert (HNi' : NoDup is) by (inversion HNi; assumption). destruct (IH acc1) as (acc' & HE & H3 & H4); auto.
      + now rewrite (proj1 H1).
      + intros j Hj. apply Hi. now right.
      + intros o Ho. rewrite (added_at _ H1); [auto|]. intros [->|[]]. auto.
      + exists acc'. split; [exact HE|]. split.
        * split; [now rewrite (proj1 H3), (proj1 H1)|]. intros j Hj. rewrite (proj2 H3) by (intros H; apply Hj; now right). apply (proj2 H1). intros [->|[]]. apply Hj. now left.
        * intros j [<-|Hj]; [|auto]. rewrite (added_at _ H3) by exact Hni. simpl length. replace (Datatypes.S (length rest) - 1) with (length rest) by lia. exact H2.
  Qed.
  Lemma sum_nodes_none is acc : sum_nodes A nodes [] is acc = Ok acc.
  Proof. induction is as [|i is IH]; [reflexivity|]. cbn [sum_nodes bind]. exact IH. Qed.
End Neighbours.

(** * All paths *)
Lemma filter_nil_iff {X} (b : X -> bool) L : filter b L = [] <-> forall x, In x L -> b x = false.
Proof.
  induction L as [|x L IH]; simpl; [intuition|]. destruct (b x) eqn:Ex; split; intros H.
  - discriminate.
  - rewrite (H x (or_introl eq_refl)) in Ex. discriminate.
  - intros y [<-|Hy]; [exact Ex|]. now apply IH.
  - apply IH. auto.
Qed.
Lemma NoDup_app_intro {X} (L M : list X) : NoDup L -> NoDup M -> (forall x, In x L -> ~ In x M) -> NoDup (L ++ M).
Proof.
  induction 1 as [|x L Hx HN IH]; intros HM HD; simpl; [exact HM|]. constructor.
  - rewrite in_app_iff. intros [H|H]; [contradiction|]. exact (HD x (or_introl eq_refl) H).
  - apply IH; [exact HM|]. intros y Hy. apply HD. now right.
Qed.
Lemma NoDup_flat_map {X Y} (f : X -> list Y) L : NoDup L -> (forall x, In x L -> NoDup (f x)) ->
  (forall x x' y, In x L -> In x' L -> In y (f x) -> In y (f x') -> x = x') -> NoDup (flat_map f L).
Proof.
  induction 1 as [|x L Hx HN IH]; intros H1 H2; simpl; [constructor|]. apply NoDup_app_intro.
  - apply H1. now left.
  - apply IH; [intros y Hy; apply H1; now right|]. intros a b y Ha Hb. apply H2; now right.
  - intros y Hy Hin. apply in_flat_map in Hin as (x' & Hx' & Hy'). assert (x = x') by (eapply H2; eauto; [now left|now right]). subst. contradiction.
Qed.

Lemma filter_length_le {X} (b : X -> bool) L : length (filter b L) <= length L.
Proof. induction L as [|x L IH]; simpl; [lia|]. destruct (b x); simpl; lia. Qed.

Section Paths.
  Variables (len : nat) (E : list (span R)).
  Hypothesis Hne : non_empty E.
  Hypothesis Hin : Forall (fun e => s_end e <= len) E.
  Local Notation G := (all_spans R_arith len E).

  Definition pos (k : nat) : nat := match nth_error E k with Some e => s_pos e | None => 0 end.
  Definition end_ (k : nat) : nat := match nth_error E k with Some e => s_end e | None => 0 end.
  Definition scr (k : nat) : R := match nth_error E k with Some e => s_score e | None => 0%R end.
  Definition ending (p : nat) : list nat := filter (fun k => end_ k =? p) (seq 0 (length E)).
  Definition starting (p : nat) : list nat := filter (fun k => pos k =? p) (seq 0 (length E)).

  Lemma k_bounds k : k < length E -> pos k < end_ k <= len.
  Proof.
    intros Hk. destruct (nth_error_lt E Hk) as (e & He). unfold pos, end_. rewrite He. apply nth_error_In in He.
    assert (H1 := proj1 (Forall_forall _ _) Hne e He). assert (H2 := proj1 (Forall_forall _ _) Hin e He). cbv beta in *. unfold s_end in *. lia.
  Qed.
  Lemma ending_In p k : In k (ending p) <-> k < length E /\ end_ k = p.
  Proof. unfold ending. rewrite filter_In, in_seq, Nat.eqb_eq. intuition lia. Qed.
  Lemma starting_In p k : In k (starting p) <-> k < length E /\ pos k = p.
  Proof. unfold starting. rewrite filter_In, in_seq, Nat.eqb_eq. intuition lia. Qed.
  Lemma ending_NoDup p : NoDup (ending p).
  Proof. apply NoDup_filter, seq_NoDup. Qed.
  Lemma starting_NoDup p : NoDup (starting p).
  Proof. apply NoDup_filter, seq_NoDup. Qed.

  Lemma seq_shift2 n : seq 2 n = map (fun k => 2 + k) (seq 0 n).
  Proof. rewrite <- !seq_shift, map_map. reflexivity. Qed.
  Lemma filter_map_comm {X Y} (f : X -> Y) (b : Y -> bool) L : filter b (map f L) = map f (filter (fun x => b (f x)) L).
  Proof. induction L as [|x L IH]; [reflexivity|]. simpl. destruct (b (f x)); simpl; now rewrite IH. Qed.
  Lemma sat_E f k : k < length E -> sat G f (2 + k) = match nth_error E k with Some e => f e | None => false end.
  Proof. reflexivity. Qed.
  Lemma ends_G p : ends G p = (if 0 =? p then [0] else []) ++ map (fun k => 2 + k) (ending p).
  Proof.
    unfold ends. change (length G) with (2 + length E). change (seq 0 (2 + length E)) with (0 :: 1 :: seq 2 (length E)). cbn [filter Nat.eqb negb andb]. unfold sat at 1. cbn [nth_error all_spans].
    change (s_end (bos_span R_arith)) with 0. rewrite seq_shift2, filter_map_comm. 
    assert (Ef : filter (fun x => negb (2 + x =? 1) && sat G (fun e => s_end e =? p) (2 + x)) (seq 0 (length E)) = ending p).
    { apply filter_ext_in. intros k Hk. apply in_seq in Hk. rewrite sat_E by lia. unfold end_. destruct (nth_error_lt E (i := k)) as (e & ->); [lia|]. reflexivity. }
    rewrite Ef. destruct p; reflexivity.
  Qed.
  Lemma begins_G p : begins G p = (if len =? p then [1] else []) ++ map (fun k => 2 + k) (starting p).
  Proof.
    unfold begins. change (length G) with (2 + length E). change (seq 0 (2 + length E)) with (0 :: 1 :: seq 2 (length E)). cbn [filter Nat.eqb negb andb]. unfold sat at 1. cbn [nth_error all_spans].
    change (s_pos (eos_span R_arith len)) with len. rewrite seq_shift2, filter_map_comm. 
    assert (Ef : filter (fun x => negb (2 + x =? 0) && sat G (fun e => s_pos e =? p) (2 + x)) (seq 0 (length E)) = starting p).
    { apply filter_ext_in. intros k Hk. apply in_seq in Hk. rewrite sat_E by lia. unfold pos. destruct (nth_error_lt E (i := k)) as (e & ->); [lia|]. reflexivity. }
    rewrite Ef. destruct (len =? p); reflexivity.
  Qed.

  Lemma ending_Root p : ending p = [] <-> Root E p.
  Proof.
    split.
    - intros H e He Hp. apply In_nth_error in He as [k Hk]. assert (Hin' : In k (ending p)).
      { apply ending_In. split; [apply nth_error_Some; congruence|]. unfold end_. now rewrite Hk. }
      rewrite H in Hin'. destruct Hin'.
    - intros H. apply filter_nil_iff. intros k Hk. apply in_seq in Hk. destruct (nth_error_lt E (i := k)) as (e & He); [lia|]. apply Nat.eqb_neq. unfold end_. rewrite He. apply H. eapply nth_error_In; eauto.
  Qed.
  Lemma starting_Sink p : starting p = [] <-> Sink E p.
  Proof.
    split.
    - intros H e He Hp. apply In_nth_error in He as [k Hk]. assert (Hin' : In k (starting p)).
      { apply starting_In. split; [apply nth_error_Some; congruence|]. unfold pos. now rewrite Hk. }
      rewrite H in Hin'. destruct Hin'.
    - intros H. apply filter_nil_iff. intros k Hk. apply in_seq in Hk. destruct (nth_error_lt E (i := k)) as (e & He); [lia|]. apply Nat.eqb_neq. unfold pos. rewrite He. apply H. eapply nth_error_In; eauto.
  Qed.
  Lemma ending_0 : ending 0 = [].
  Proof. apply filter_nil_iff. intros k Hk. apply in_seq in Hk. apply Nat.eqb_neq. assert (H := k_bounds (k := k)). lia. Qed.
  Lemma starting_len p : len <= p -> starting p = [].
  Proof. intros Hp. apply filter_nil_iff. intros k Hk. apply in_seq in Hk. apply Nat.eqb_neq. assert (H := k_bounds (k := k)). lia. Qed.

  Fixpoint rpaths (fuel p : nat) : list (list nat) :=
    match fuel with
    | 0 => []
    | S f => match ending p with [] => [[]] | ks => flat_map (fun k => map (fun w => w ++ [k]) (rpaths f (pos k))) ks end
    end.
  Fixpoint spaths (fuel p : nat) : list (list nat) :=
    match fuel with
    | 0 => []
    | S f => match starting p with [] => [[]] | ks => flat_map (fun k => map (fun w => k :: w) (spaths f (end_ k))) ks end
    end.
  Definition from_root (p : nat) (ks : list nat) : Prop := exists r, Root E r /\ Path E r p ks.
  Definition to_sink (p : nat) (ks : list nat) : Prop := exists q, Sink E q /\ Path E p q ks.

  Lemma from_root_nil p : from_root p [] <-> Root E p.
  Proof. split; [intros (r & Hr & HP); inversion HP; now subst|]. intros H. exists p. split; [exact H|constructor]. Qed.
  Lemma from_root_snoc p w k : from_root p (w ++ [k]) <-> In k (ending p) /\ from_root (pos k) w.
  Proof.
    rewrite ending_In. split.
    - intros (r & Hr & HP). apply Path_snoc_inv in HP as (e & Hk & He & HP). unfold end_, pos. rewrite Hk. split; [split; [apply nth_error_Some; congruence|exact He]|]. exists r. auto.
    - intros [[Hk He] (r & Hr & HP)]. destruct (nth_error_lt E Hk) as (e & Hn). unfold end_, pos in *. rewrite Hn in *. subst p. exists r. split; [exact Hr|]. eapply Path_snoc; eauto.
  Qed.
  Lemma to_sink_nil p : to_sink p [] <-> Sink E p.
  Proof. split; [intros (r & Hr & HP); inversion HP; now subst|]. intros H. exists p. split; [exact H|constructor]. Qed.
  Lemma to_sink_cons p w k : to_sink p (k :: w) <-> In k (starting p) /\ to_sink (end_ k) w.
  Proof.
    rewrite starting_In. split.
    - intros (q & Hq & HP). inversion HP as [|k1 e ks1 q1 Hk HP1]; subst. unfold end_, pos. rewrite Hk. split; [split; [apply nth_error_Some; congruence|reflexivity]|]. exists q. auto.
    - intros [[Hk He] (q & Hq & HP)]. destruct (nth_error_lt E Hk) as (e & Hn). unfold end_, pos in *. rewrite Hn in *. subst p. exists q. split; [exact Hq|]. econstructor; eauto.
  Qed.

  Lemma rpaths_enum fuel : forall p, p < fuel -> enumerates (rpaths fuel p) (from_root p).
  Proof.
    induction fuel as [|f IH]; intros p Hp; [lia|]. cbn [rpaths]. destruct (ending p) as [|k0 ks0] eqn:Ee.
    - split; [repeat constructor; intros []|]. intros ks. split.
      + intros [<-|[]]. apply from_root_nil. now apply ending_Root.
      + intros H. destruct ks as [|k ks _] using rev_ind; [now left|]. apply from_root_snoc in H as [H _]. rewrite Ee in H. destruct H.
    - rewrite <- Ee. assert (Hf : forall k, In k (ending p) -> enumerates (rpaths f (pos k)) (from_root (pos k))).
      { intros k Hk. apply IH. apply ending_In in Hk as [Hk He]. assert (H := k_bounds Hk). lia. }
      split.
      + apply NoDup_flat_map.
        * apply ending_NoDup.
        * intros k Hk. apply FinFun.Injective_map_NoDup; [intros a b Hab; now apply app_inj_tail in Hab|]. now apply Hf.
        * intros k k' w _ _ H1 H2. apply in_map_iff in H1 as (a & <- & _). apply in_map_iff in H2 as (b & H2 & _). now apply app_inj_tail in H2.
      + intros ks. rewrite in_flat_map. split.
        * intros (k & Hk & H). apply in_map_iff in H as (w & <- & Hw). apply from_root_snoc. split; [exact Hk|]. now apply (Hf k Hk).
        * intros H. destruct ks as [|k ks _] using rev_ind.
          { apply from_root_nil, ending_Root in H. congruence. }
          apply from_root_snoc in H as [Hk H]. exists k. split; [exact Hk|]. apply in_map_iff. exists ks. split; [reflexivity|]. now apply (Hf k Hk).
  Qed.
  Lemma spaths_enum fuel : forall p, len < fuel + p -> 0 < fuel -> enumerates (spaths fuel p) (to_sink p).
  Proof.
    induction fuel as [|f IH]; intros p Hp H0; [lia|]. cbn [spaths]. destruct (starting p) as [|k0 ks0] eqn:Ee.
    - split; [repeat constructor; intros []|]. intros ks. split.
      + intros [<-|[]]. apply to_sink_nil. now apply starting_Sink.
      + intros H. destruct ks as [|k ks]; [now left|]. apply to_sink_cons in H as [H _]. rewrite Ee in H. destruct H.
    - rewrite <- Ee. assert (Hf : forall k, In k (starting p) -> enumerates (spaths f (end_ k)) (to_sink (end_ k))).
      { intros k Hk. apply starting_In in Hk as [Hk He]. assert (H := k_bounds Hk). apply IH; lia. }
      split.
      + apply NoDup_flat_map.
        * apply starting_NoDup.
        * intros k Hk. apply FinFun.Injective_map_NoDup; [intros a b Hab; congruence|]. now apply Hf.
        * intros k k' w _ _ H1 H2. apply in_map_iff in H1 as (a & <- & _). apply in_map_iff in H2 as (b & H2 & _). congruence.
      + intros ks. rewrite in_flat_map. split.
        * intros (k & Hk & H). apply in_map_iff in H as (w & <- & Hw). apply to_sink_cons. split; [exact Hk|]. now apply (Hf k Hk).
        * intros H. destruct ks as [|k ks].
          { apply to_sink_nil, starting_Sink in H. congruence. }
          apply to_sink_cons in H as [Hk H]. exists k. split; [exact Hk|]. apply in_map_iff. exists ks. split; [reflexivity|]. now apply (Hf k Hk).
  Qed.

  Definition F (p : nat) : R := sum (weight E) (rpaths (S p) p).
  Definition B (p : nat) : R := sum (weight E) (spaths (S len) p).
  Lemma F_enum p : enumerates (rpaths (S p) p) (from_root p).
  Proof. apply rpaths_enum. lia. Qed.
  Lemma B_enum p : enumerates (spaths (S len) p) (to_sink p).
  Proof. apply spaths_enum; lia. Qed.
  Lemma weight_nil : weight E [] = 1%R.
  Proof. unfold weight, total. simpl. apply exp_0. Qed.
  Lemma weight_app a b : weight E (a ++ b) = (weight E a * weight E b)%R.
  Proof. unfold weight. rewrite total_app. apply exp_plus. Qed.
  Lemma weight_one k : k < length E -> weight E [k] = exp (scr k).
  Proof. intros Hk. destruct (nth_error_lt E Hk) as (e & He). unfold weight, scr. rewrite (total_cons _ He), He. f_equal. unfold total. simpl. lra. Qed.
  Lemma weight_pos ks : (0 < weight E ks)%R.
  Proof. apply exp_pos. Qed.

  Lemma F_root p : ending p = [] -> F p = 1%R.
  Proof. intros H. unfold F. cbn [rpaths]. rewrite H. rewrite sum_cons, sum_nil, weight_nil. lra. Qed.
  Lemma F_rec p : ending p <> [] -> F p = sum (fun k => exp (scr k) * F (pos k))%R (ending p).
  Proof.
    intros H. unfold F at 1. cbn [rpaths]. destruct (ending p) as [|k0 ks0] eqn:Ee; [congruence|]. rewrite <- Ee, sum_flat_map. apply sum_ext. intros k Hk. apply ending_In in Hk as [Hk He].
    rewrite sum_map. unfold F. rewrite <- sum_scal.
    rewrite (@enum_sum (rpaths (S (pos k)) (pos k)) (rpaths p (pos k)) (from_root (pos k))); [|apply F_enum|apply rpaths_enum; assert (Hb := k_bounds Hk); lia].
    apply sum_ext. intros w _. rewrite weight_app, (weight_one Hk). lra.
  Qed.
  Lemma B_sink p : starting p = [] -> B p = 1%R.
  Proof. intros H. unfold B. cbn [spaths]. rewrite H. rewrite sum_cons, sum_nil, weight_nil. lra. Qed.
  Lemma B_rec p : starting p <> [] -> B p = sum (fun k => exp (scr k) * B (end_ k))%R (starting p).
  Proof.
    intros H. unfold B at 1. cbn [spaths]. destruct (starting p) as [|k0 ks0] eqn:Ee; [congruence|]. rewrite <- Ee, sum_flat_map. apply sum_ext. intros k Hk. apply starting_In in Hk as [Hk He].
    rewrite sum_map. unfold B. rewrite <- sum_scal. assert (Hb := k_bounds Hk).
    rewrite (@enum_sum (spaths (S len) (end_ k)) (spaths len (end_ k)) (to_sink (end_ k))); [|apply B_enum|apply spaths_enum; lia].
    apply sum_ext. intros w _. change (k :: w) with ([k] ++ w). rewrite weight_app, (weight_one Hk). lra.
  Qed.

  (** How many steps the errors come from. *)
  Definition KF (p : nat) : nat := length (filter (fun k => end_ k <=? p) (seq 0 (length E))).
  Definition KB (p : nat) : nat := length (filter (fun k => p <=? pos k) (seq 0 (length E))).
  Lemma filter_disjoint {X} (a b c : X -> bool) L : (forall x, In x L -> a x = true -> c x = true) -> (forall x, In x L -> b x = true -> c x = true) ->
    (forall x, In x L -> a x = true -> b x = false) -> length (filter a L) + length (filter b L) <= length (filter c L).
  Proof.
    induction L as [|x L IH]; intros H1 H2 H3; [simpl; lia|]. specialize (IH (fun y Hy => H1 y (or_intror Hy)) (fun y Hy => H2 y (or_intror Hy)) (fun y Hy => H3 y (or_intror Hy))).
    simpl. specialize (H1 x (or_introl eq_refl)). specialize (H2 x (or_introl eq_refl)). specialize (H3 x (or_introl eq_refl)).
    destruct (a x), (b x), (c x); simpl; try lia; try (specialize (H1 eq_refl); discriminate); try (specialize (H2 eq_refl); discriminate); try (specialize (H3 eq_refl); discriminate).
  Qed.
  Lemma KF_step p q : q < p -> KF q + length (ending p) <= KF p.
  Proof. intros H. apply filter_disjoint; intros k _; rewrite ?Nat.leb_le, ?Nat.eqb_eq; intros; try lia. apply Nat.eqb_neq. lia. Qed.
  Lemma KB_step p q : p < q -> KB q + length (starting p) <= KB p.
  Proof. intros H. apply filter_disjoint; intros k _; rewrite ?Nat.leb_le, ?Nat.eqb_eq; intros; try lia. apply Nat.eqb_neq. lia. Qed.
  Lemma KF_mono p q : q <= p -> KF q <= KF p.
  Proof.
    intros H. destruct (Nat.eq_dec p q) as [->|]; [lia|]. assert (Hs := @KF_step p q). lia.
  Qed.
  Lemma KB_mono p q : p <= q -> KB q <= KB p.
  Proof. intros H. destruct (Nat.eq_dec p q) as [->|]; [lia|]. assert (Hs := @KB_step p q). lia. Qed.
  Lemma KF_KB p q : p <= q -> KF p + KB q <= length E.
  Proof.
    intros H. apply Nat.le_trans with (length (filter (fun _ => true) (seq 0 (length E)))).
    2: { rewrite <- (seq_length (length E) 0) at 2. apply filter_length_le. }
    apply filter_disjoint; auto.
    intros k Hk Ha. apply in_seq in Hk. apply Nat.leb_le in Ha. apply Nat.leb_gt. assert (Hb := k_bounds (k := k)). lia.
  Qed.
End Paths.

(** * The two passes *)
Section Passes.
  Variables (s : bytes) (E : list (span R)) (l : lattice R).
  Hypothesis I : inv R_arith s E l.
  Hypothesis Hne : non_empty E.
  Local Notation A := R_arith.
  Local Notation len := (length s).
  Local Notation G := (all_spans R_arith (length s) E).
  Local Notation sc := (score R_arith G).
  Let Hin : Forall (fun e => s_end e <= len) E := i_inside I.

  Definition end_of (i : nat) : nat := match nth_error G i with Some e => s_end e | None => 0 end.
  Lemma pos_of_E k : pos_of G (2 + k) = pos E k.
  Proof. reflexivity. Qed.
  Lemma end_of_E k : end_of (2 + k) = end_ E k.
  Proof. reflexivity. Qed.
  Lemma score_E k : sc (2 + k) = scr E k.
  Proof. reflexivity. Qed.
  Lemma len_G : length G = 2 + length E.
  Proof. reflexivity. Qed.

  Definition forward_inv (p : nat) (alpha : list R) : Prop :=
    length alpha = length G /\
    (forall i, i < length G -> i <> 0 -> pos_of G i < p -> approx (KF E (pos_of G i)) (exp (at_ alpha i)) (F E (pos_of G i))) /\
    (forall i, i = 0 \/ p <= pos_of G i -> at_ alpha i = 0%R).
  Definition backward_inv (p : nat) (beta : list R) : Prop :=
    length beta = length G /\
    (forall i, i < length G -> i <> 1 -> p <= end_of i -> approx (KB E (end_of i)) (exp (at_ beta i)) (B len E (end_of i))) /\
    (forall i, i = 1 \/ end_of i < p -> at_ beta i = 0%R).

  Lemma begins_at p i : In i (begins G p) <-> i <> 0 /\ i < length G /\ pos_of G i = p.
  Proof.
    rewrite begins_spec. unfold pos_of. split.
    - intros (H0 & e & He & Hp). rewrite He. splits; auto. apply nth_error_Some. congruence.
    - intros (H0 & Hlt & Hp). split; [exact H0|]. destruct (nth_error_lt G Hlt) as (e & He). rewrite He in Hp. eauto.
  Qed.
  Lemma ends_at p i : In i (ends G p) <-> i <> 1 /\ i < length G /\ end_of i = p.
  Proof.
    rewrite ends_spec. unfold end_of. split.
    - intros (H0 & e & He & Hp). rewrite He. splits; auto. apply nth_error_Some. congruence.
    - intros (H0 & Hlt & Hp). split; [exact H0|]. destruct (nth_error_lt G Hlt) as (e & He). rewrite He in Hp. eauto.
  Qed.

  Definition YF (o : nat) : R := match o with 0 => 1%R | _ => F E (pos_of G o) end.
  Lemma sum_F p : ends G p <> [] -> sum (fun o => exp (sc o) * YF o)%R (ends G p) = F E p.
  Proof.
    rewrite ends_G. destruct (Nat.eqb_spec 0 p) as [<-|Hp].
    - intros _. rewrite (ending_0 Hne Hin). cbn [map app]. rewrite sum_cons, sum_nil, (F_root E 0 (ending_0 Hne Hin)). change (sc 0) with 0%R. rewrite exp_0. simpl YF. lra.
    - cbn [app]. intros Hn. rewrite sum_map, (F_rec Hne Hin); [reflexivity|]. intros H. apply Hn. now rewrite H.
  Qed.
  Lemma YF_approx p alpha o : forward_inv p alpha -> In o (ends G p) -> approx (KF E (p - 1)) (exp (at_ alpha o)) (YF o).
  Proof.
    intros (_ & H1 & H2) Ho. destruct (ends_before A len Hne _ _ Ho) as (_ & Hlt & [(-> & ->)|(Hge & Hp)]).
    - rewrite (H2 0 (or_introl eq_refl)), exp_0. change (YF 0) with 1%R. apply approx_weaken with 0; [lia|]. apply approx_refl. lra.
    - destruct o as [|o]; [lia|]. apply approx_weaken with (KF E (pos_of G (S o))); [apply KF_mono; lia|]. apply H1; auto.
  Qed.

  Lemma forward_step p alpha : p <= len -> forward_inv p alpha ->
    exists alpha', sum_nodes A (l_nodes l) (match begins G p with [] => [] | _ => ends G p end) (begins G p) alpha = Ok alpha' /\ forward_inv (p + 1) alpha'.
  Proof.
    intros Hp HI. destruct (begins G p) as [|r0 rs] eqn:Eb.
    - exists alpha. split; [reflexivity|]. destruct HI as (H0 & H1 & H2). split; [exact H0|]. split.
      + intros i Hi Hi0 Hlt. apply H1; auto. destruct (Nat.eq_dec (pos_of G i) p) as [E1|]; [|lia]. exfalso. assert (Hb : In i (begins G p)) by (apply begins_at; auto). rewrite Eb in Hb. destruct Hb.
      + intros i Hi. apply H2. lia.
    - rewrite <- Eb. destruct (ends G p) as [|l0 ls] eqn:Ee.
      + exists alpha. rewrite sum_nodes_none. split; [reflexivity|]. destruct HI as (H0 & H1 & H2). split; [exact H0|]. split.
        * intros i Hi Hi0 Hlt. destruct (Nat.eq_dec (pos_of G i) p) as [E1|]; [|apply H1; auto; lia]. rewrite (H2 i) by lia. rewrite E1, exp_0.
          assert (Hen : ending E p = []). { rewrite ends_G in Ee. apply app_eq_nil in Ee as [_ Ee]. now apply map_eq_nil in Ee. }
          rewrite (F_root E p Hen). apply approx_weaken with 0; [lia|]. apply approx_refl. lra.
        * intros i Hi. apply H2. lia.
      + rewrite <- Ee. assert (Hnn : ends G p <> []) by congruence. destruct HI as (H0 & H1 & H2).
        destruct (@sum_nodes_spec G (l_nodes l) (proj1 (i_nodes I)) (ends G p) YF (KF E (p - 1)) Hnn (ends_NoDup _ _) (fun o Ho => proj1 (proj2 (proj1 (ends_at p o) Ho))) (begins G p) alpha H0 (begins_NoDup _ _)) as (alpha' & HE & [HL HO] & HA).
        * intros i Hi. split; [now apply begins_at in Hi|]. intros He. now apply (ends_not_begins A len Hne) in He.
        * intros o Ho. apply YF_approx; [split; [exact H0|split; [exact H1|exact H2]]|exact Ho].
        * exists alpha'. split; [exact HE|]. assert (Hat : forall j, ~ In j (begins G p) -> at_ alpha' j = at_ alpha j) by (intros j; apply added_at; split; auto). split; [|split].
          -- now rewrite HL.
          -- intros i Hi Hi0 Hlt. destruct (Nat.eq_dec (pos_of G i) p) as [E1|E1].
             ++ rewrite E1. rewrite <- (sum_F p Hnn). assert (Hb : In i (begins G p)) by (apply begins_at; auto). specialize (HA i Hb). revert HA. apply approx_weaken.
                rewrite ends_G in *. destruct (Nat.eqb_spec 0 p) as [<-|Hp0].
                ** rewrite (ending_0 Hne Hin). simpl. lia.
                ** cbn [app]. rewrite map_length. cbn [app] in Hnn. assert (Hs := @KF_step E p (p - 1)). lia.
             ++ rewrite Hat; [apply H1; auto; lia|]. intros Hb. apply begins_at in Hb. tauto.
          -- intros i Hi. rewrite Hat; [apply H2; lia|]. intros Hb. apply begins_at in Hb. lia.
  Qed.
  Lemma forward_spec n : forall p alpha, p + n = len + 1 -> forward_inv p alpha -> exists alpha', forward A l alpha p n = Ok alpha' /\ forward_inv (len + 1) alpha'.
  Proof.
    induction n as [|n IH]; intros p alpha Hp HI; [exists alpha; split; [reflexivity|]; now replace (len + 1) with p by lia|].
    cbn [forward]. assert (Hp' : p <= len) by lia. rewrite (index_Some _ _ (i_begin I Hp')). cbn [bind]. destruct (forward_step Hp' HI) as (alpha1 & HE & HI1).
    assert (El : (match begins G p with [] => Ok [] | _ :: _ => index (l_end l) p end) = Ok (match begins G p with [] => [] | _ => ends G p end)).
    { destruct (begins G p); [reflexivity|]. apply index_Some. now apply (i_end I). }
    rewrite El. cbn [bind]. rewrite HE. cbn [bind]. apply IH; [lia|exact HI1].
  Qed.

  Definition YB (o : nat) : R := match o with 1 => 1%R | _ => B len E (end_of o) end.
  Lemma sum_B p : begins G p <> [] -> sum (fun o => exp (sc o) * YB o)%R (begins G p) = B len E p.
  Proof.
    rewrite begins_G. destruct (Nat.eqb_spec len p) as [<-|Hp].
    - intros _. rewrite (starting_len Hne Hin (Nat.le_refl _)). cbn [map app]. rewrite sum_cons, sum_nil, (B_sink len E len (starting_len Hne Hin (Nat.le_refl _))). change (sc 1) with 0%R. rewrite exp_0. simpl YB. lra.
    - cbn [app]. intros Hn. rewrite sum_map, (B_rec Hne Hin); [reflexivity|]. intros H. apply Hn. now rewrite H.
  Qed.
  Lemma YB_approx p beta o : backward_inv (p + 1) beta -> In o (begins G p) -> approx (KB E (p + 1)) (exp (at_ beta o)) (YB o).
  Proof.
    intros (_ & H1 & H2) Ho. apply begins_at in Ho as (H0 & Hlt & Hp). destruct o as [|[|k]]; [lia| |].
    - rewrite (H2 1 (or_introl eq_refl)), exp_0. change (YB 1) with 1%R. apply approx_weaken with 0; [lia|]. apply approx_refl. lra.
    - assert (Hk : k < length E) by (rewrite len_G in Hlt; lia). assert (Hb := k_bounds Hne Hin Hk). change (pos_of G (S (S k))) with (pos E k) in Hp.
      change (YB (S (S k))) with (B len E (end_of (2 + k))). apply approx_weaken with (KB E (end_of (2 + k))); [apply KB_mono; rewrite end_of_E; lia|]. apply H1; [exact Hlt|lia|]. rewrite end_of_E. lia.
  Qed.
  Lemma backward_step p beta : p <= len -> backward_inv (p + 1) beta ->
    exists beta', sum_nodes A (l_nodes l) (match ends G p with [] => [] | _ => begins G p end) (ends G p) beta = Ok beta' /\ backward_inv p beta'.
  Proof.
    intros Hp HI. destruct (ends G p) as [|r0 rs] eqn:Eb.
    - exists beta. split; [reflexivity|]. destruct HI as (H0 & H1 & H2). split; [exact H0|]. split.
      + intros i Hi Hi0 Hlt. apply H1; auto. destruct (Nat.eq_dec (end_of i) p) as [E1|]; [|lia]. exfalso. assert (Hb : In i (ends G p)) by (apply ends_at; auto). rewrite Eb in Hb. destruct Hb.
      + intros i Hi. apply H2. lia.
    - rewrite <- Eb. destruct (begins G p) as [|l0 ls] eqn:Ee.
      + exists beta. rewrite sum_nodes_none. split; [reflexivity|]. destruct HI as (H0 & H1 & H2). split; [exact H0|]. split.
        * intros i Hi Hi0 Hlt. destruct (Nat.eq_dec (end_of i) p) as [E1|]; [|apply H1; auto; lia]. rewrite (H2 i) by lia. rewrite E1, exp_0.
          assert (Hen : starting E p = []). { rewrite begins_G in Ee. apply app_eq_nil in Ee as [_ Ee]. now apply map_eq_nil in Ee. }
          rewrite (B_sink len E p Hen). apply approx_weaken with 0; [lia|]. apply approx_refl. lra.
        * intros i Hi. apply H2. lia.
      + rewrite <- Ee. assert (Hnn : begins G p <> []) by congruence. destruct HI as (H0 & H1 & H2).
        destruct (@sum_nodes_spec G (l_nodes l) (proj1 (i_nodes I)) (begins G p) YB (KB E (p + 1)) Hnn (begins_NoDup _ _) (fun o Ho => proj1 (proj2 (proj1 (begins_at p o) Ho))) (ends G p) beta H0 (ends_NoDup _ _)) as (beta' & HE & [HL HO] & HA).
        * intros i Hi. split; [now apply ends_at in Hi|]. now apply (ends_not_begins A len Hne).
        * intros o Ho. apply YB_approx; [split; [exact H0|split; [exact H1|exact H2]]|exact Ho].
        * exists beta'. split; [exact HE|]. assert (Hat : forall j, ~ In j (ends G p) -> at_ beta' j = at_ beta j) by (intros j; apply added_at; split; auto). split; [|split].
          -- now rewrite HL.
          -- intros i Hi Hi0 Hlt. destruct (Nat.eq_dec (end_of i) p) as [E1|E1].
             ++ rewrite E1. rewrite <- (sum_B p Hnn). assert (Hb : In i (ends G p)) by (apply ends_at; auto). specialize (HA i Hb). revert HA. apply approx_weaken.
                rewrite begins_G in *. destruct (Nat.eqb_spec len p) as [<-|Hp0].
                ** rewrite (starting_len Hne Hin (Nat.le_refl _)). simpl. assert (Hs := @KB_mono E len (len + 1)). lia.
                ** cbn [app]. rewrite map_length. cbn [app] in Hnn. assert (Hs := @KB_step E p (p + 1)). lia.
             ++ rewrite Hat; [apply H1; auto; lia|]. intros Hb. apply ends_at in Hb. tauto.
          -- intros i Hi. rewrite Hat; [apply H2; lia|]. intros Hb. apply ends_at in Hb. lia.
  Qed.
  Lemma backward_spec n : forall beta, n <= len + 1 -> backward_inv n beta -> exists beta', backward A l beta n = Ok beta' /\ backward_inv 0 beta'.
  Proof.
    induction n as [|p IH]; intros beta Hn HI; [exists beta; auto|].
    cbn [backward]. assert (Hp' : p <= len) by lia. rewrite (index_Some _ _ (i_end I Hp')). cbn [bind]. replace (S p) with (p + 1) in HI by lia. destruct (backward_step Hp' HI) as (beta1 & HE & HI1).
    assert (El : (match ends G p with [] => Ok [] | _ :: _ => index (l_begin l) p end) = Ok (match ends G p with [] => [] | _ => begins G p end)).
    { destruct (ends G p); [reflexivity|]. apply index_Some. now apply (i_begin I). }
    rewrite El. cbn [bind]. rewrite HE. cbn [bind]. apply IH; [lia|exact HI1].
  Qed.

  (** * The expected frequencies *)
  Definition id (k : nat) : N := match nth_error E k with Some e => s_id e | None => 0%N end.
  Lemma starting_all : Permutation (flat_map (starting E) (seq 0 len)) (seq 0 (length E)).
  Proof.
    apply NoDup_Permutation.
    - apply NoDup_flat_map; [apply seq_NoDup|intros p _; apply starting_NoDup|]. intros p q k _ _ H1 H2. apply starting_In in H1, H2. lia.
    - apply seq_NoDup.
    - intros k. rewrite in_flat_map, in_seq. split.
      + intros (p & _ & H). apply starting_In in H. lia.
      + intros Hk. exists (pos E k). assert (Hb' := k_bounds Hne Hin (k := k)). split; [apply in_seq; lia|]. apply starting_In. lia.
  Qed.
  Section Expected.
  Variables (alpha beta : list R) (z : R).
  Hypothesis Ha : length alpha = length G.
  Hypothesis Hb : length beta = length G.
  Definition upd (k : nat) : R := exp (at_ alpha (2 + k) + scr E k + at_ beta (2 + k) - z).

  Lemma add_expected_spec ks : forall expected, (forall k, In k ks -> k < length E /\ N.to_nat (id k) < length expected) ->
    exists expected', add_expected A (l_nodes l) alpha beta z (map (fun k => 2 + k) ks) expected = Ok expected' /\ length expected' = length expected /\
      forall t, t < length expected -> at_ expected' t = (at_ expected t + sum (fun k => if N.to_nat (id k) =? t then upd k else 0) ks)%R.
  Proof.
    induction ks as [|k ks IH]; intros expected Hk; [exists expected; splits; auto; intros t _; rewrite sum_nil; lra|].
    destruct (Hk k (or_introl eq_refl)) as [Hk1 Hk2]. cbn [map add_expected].
    destruct (nth_error_lt E Hk1) as (e & He). destruct (nodes_at _ _ (proj1 (i_nodes I)) (He : nth_error G (2 + k) = Some e)) as (n & Hn & Hs).
    rewrite (index_Some _ _ Hn). cbn [bind].
    rewrite (index_Some _ _ (@at_error alpha (2 + k) ltac:(rewrite Ha, len_G; lia))). cbn [bind].
    rewrite (index_Some _ _ (@at_error beta (2 + k) ltac:(rewrite Hb, len_G; lia))). cbn [bind].
    assert (Eid : n_token_id n = id k). { unfold id. rewrite He, <- Hs. reflexivity. } assert (Esc : n_score n = scr E k). { unfold scr. rewrite He, <- Hs. reflexivity. }
    rewrite Eid, Esc. rewrite (index_Some _ _ (@at_error expected (N.to_nat (id k)) Hk2)). cbn [bind]. unfold store.
    assert (El : (N.to_nat (id k) <? length expected) = true) by now apply Nat.ltb_lt. rewrite El. cbn [bind].
    match goal with |- context[update expected ?j ?v] => set (exp1 := update expected j v) end.
    assert (Hl1 : length exp1 = length expected) by apply update_length.
    destruct (IH exp1) as (expected' & HE & HL & HV).
    { intros j Hj. rewrite Hl1. apply Hk. now right. }
    exists expected'. split; [exact HE|]. split; [congruence|]. intros t Ht. rewrite HV by lia. rewrite sum_cons. unfold exp1. destruct (Nat.eqb_spec (N.to_nat (id k)) t) as [Et|Et].
    - rewrite <- Et. rewrite at_update_same by exact Hk2. unfold upd. simpl. lra.
    - rewrite at_update_other by congruence. lra.
  Qed.
  Lemma add_positions_spec n : forall p expected, p + n = len -> (forall k, k < length E -> N.to_nat (id k) < length expected) ->
    exists expected', add_positions A l alpha beta z p n expected = Ok expected' /\ length expected' = length expected /\
      forall t, t < length expected -> at_ expected' t = (at_ expected t + sum (fun k => if N.to_nat (id k) =? t then upd k else 0) (flat_map (starting E) (seq p n)))%R.
  Proof.
    induction n as [|n IH]; intros p expected Hp Hk; [exists expected; splits; auto; intros t _; simpl; rewrite sum_nil; lra|].
    cbn [add_positions]. rewrite (index_Some _ _ (i_begin I (ltac:(lia) : p <= len))). cbn [bind]. rewrite begins_G. destruct (Nat.eqb_spec len p); [lia|]. cbn [app].
    destruct (@add_expected_spec (starting E p) expected) as (exp1 & -> & HL1 & HV1). { intros k Hin'. apply starting_In in Hin' as [H1 _]. auto. }
    cbn [bind]. destruct (IH (p + 1) exp1) as (expected' & HE & HL & HV); [lia|intros k Hk'; rewrite HL1; auto|].
    exists expected'. split; [exact HE|]. split; [congruence|]. intros t Ht. rewrite HV, HV1 by lia. cbn [seq flat_map]. rewrite sum_app. replace (p + 1) with (S p) by lia. lra.
  Qed.
  End Expected.

  Theorem marginal_spec expected : (forall k, k < length E -> N.to_nat (id k) < length expected) ->
    exists expected' z u, populate_marginal A l expected = Ok (expected', z) /\ length expected' = length expected /\
      approx (length E) (exp z) (F E len) /\
      (forall k, k < length E -> exists x, approx (length E) x (F E (pos E k) * exp (scr E k) * B len E (end_ E k)) /\ u k = (x / exp z)%R) /\
      forall t, t < length expected -> at_ expected' t = (at_ expected t + sum (fun k => if N.to_nat (id k) =? t then u k else 0) (seq 0 (length E)))%R.
  Proof.
    intros Hids. unfold populate_marginal. rewrite (i_sentence I). rewrite (nodes_length (i_nodes I)). set (zeros := repeat (a_zero A) (length G)).
    assert (Hz : forall i, at_ zeros i = 0%R).
    { intros i. unfold at_, zeros. destruct (Nat.lt_ge_cases i (length G)) as [H|H]; [|apply nth_overflow; now rewrite repeat_length]. apply nth_error_nth. now apply nth_error_repeat. }
    assert (Hzl : length zeros = length G) by apply repeat_length.
    destruct (@forward_spec (len + 1) 0 zeros) as (alpha & -> & HA1 & HA2 & HA3); [reflexivity|split; [exact Hzl|split; [intros; lia|intros; apply Hz]]|]. cbn [bind].
    destruct (@backward_spec (len + 1) zeros) as (beta & -> & HB1 & HB2 & HB3); [lia| |].
    { split; [exact Hzl|split; [|intros; apply Hz]]. intros i Hi Hi1 Hge. exfalso. destruct i as [|[|k]]; [change (end_of 0) with 0 in Hge; lia|lia|]. change (end_of (S (S k))) with (end_ E k) in Hge.
      assert (Hb := k_bounds Hne Hin (k := k)). rewrite len_G in Hi. lia. }
    cbn [bind]. rewrite (i_eos I). rewrite (index_Some _ _ (@at_error alpha 1 ltac:(rewrite HA1, len_G; lia))). cbn [bind]. set (z := at_ alpha 1).
    destruct (@add_positions_spec alpha beta z HA1 HB1 len 0 expected (eq_refl)) as (expected' & -> & HL & HV); [exact Hids|]. cbn [bind].
    exists expected', z, (upd alpha beta z). split; [reflexivity|]. split; [exact HL|]. split; [|split].
    - assert (H := HA2 1 ltac:(rewrite len_G; lia) ltac:(lia)). change (pos_of G 1) with len in H. specialize (H ltac:(lia)). revert H. apply approx_weaken.
      assert (Hk := KF_KB Hne Hin (Nat.le_refl len)). lia.
    - intros k Hk. assert (H1 := HA2 (2 + k) ltac:(rewrite len_G; lia) ltac:(lia)). assert (H2 := HB2 (2 + k) ltac:(rewrite len_G; lia) ltac:(lia)). assert (Hb := k_bounds Hne Hin Hk).
      rewrite pos_of_E in H1. rewrite end_of_E in H2. specialize (H1 ltac:(lia)). specialize (H2 ltac:(lia)).
      exists (exp (at_ alpha (2 + k)) * exp (scr E k) * exp (at_ beta (2 + k)))%R. split.
      + apply approx_weaken with (KF E (pos E k) + KB E (end_ E k)); [apply (KF_KB Hne Hin); lia|].
        apply approx_trans with (F E (pos E k) * exp (scr E k) * exp (at_ beta (2 + k)))%R.
        * rewrite !(Rmult_comm _ (exp (at_ beta (2 + k)))), !(Rmult_comm _ (exp (scr E k))), <- !Rmult_assoc. apply approx_scal; [|exact H1]. apply Rmult_lt_0_compat; apply exp_pos.
        * apply approx_scal; [|exact H2]. apply Rmult_lt_0_compat; [exact (approx_pos H1)|apply exp_pos].
      + unfold upd. unfold Rminus. rewrite !exp_plus, exp_Ropp. reflexivity.
    - intros t Ht. rewrite HV by exact Ht. f_equal. apply sum_perm. apply starting_all.
  Qed.
End Passes.

(** * Paths through a node *)
Section Through.
  Variables (len : nat) (E : list (span R)).
  Hypothesis Hne : non_empty E.
  Hypothesis Hin : Forall (fun e => s_end e <= len) E.

  Definition whole (ks : list nat) : Prop := ks <> [] /\ exists r q, Root E r /\ Sink E q /\ Path E r q ks.

  Lemma Path_indices p q ks k : Path E p q ks -> In k ks -> k < length E /\ p <= pos E k.
  Proof.
    induction 1 as [|k0 e ks q Hk HP IH]; intros [].
    - subst k0. split; [apply nth_error_Some; congruence|]. unfold pos. now rewrite Hk.
    - destruct (IH H) as [H1 H2]. split; [exact H1|]. unfold s_end in H2. lia.
  Qed.
  Lemma Path_NoDup p q ks : Path E p q ks -> NoDup ks.
  Proof.
    induction 1 as [|k e ks q Hk HP IH]; constructor; auto. intros H. destruct (Path_indices k HP H) as [H1 H2]. assert (H3 := k_bounds Hne Hin H1).
    unfold pos, end_ in *. rewrite Hk in *. lia.
  Qed.
  Lemma split_unique (a a' b b' : list nat) k : NoDup (a ++ k :: b) -> a ++ k :: b = a' ++ k :: b' -> a = a' /\ b = b'.
  Proof.
    revert a'. induction a as [|x a IH]; intros a' HN Heq.
    - destruct a' as [|y a']; simpl in Heq; [injection Heq as ->; auto|]. injection Heq as <- ->. simpl in HN. inversion HN as [|? ? H _]; subst. exfalso. apply H, in_or_app. right. now left.
    - destruct a' as [|y a']; simpl in Heq.
      + injection Heq as -> <-. simpl in HN. inversion HN as [|? ? H _]; subst. exfalso. apply H, in_or_app. right. now left.
      + injection Heq as -> Heq. simpl in HN. inversion HN; subst. destruct (IH a') as [-> ->]; auto.
  Qed.
  Lemma whole_split a k b : whole (a ++ k :: b) <-> k < length E /\ from_root E (pos E k) a /\ to_sink E (end_ E k) b.
  Proof.
    split.
    - intros (_ & r & q & Hr & Hq & HP). destruct (Path_split _ _ HP) as (m & H1 & H2). inversion H2 as [|k1 e ks1 q1 Hk HP1]; subst. unfold pos, end_. rewrite Hk.
      splits; [apply nth_error_Some; congruence|exists r; auto|exists q; auto].
    - intros (Hk & (r & Hr & H1) & (q & Hq & H2)). destruct (nth_error_lt E Hk) as (e & He). unfold pos, end_ in *. rewrite He in *. split; [destruct a; discriminate|].
      exists r, q. splits; auto. eapply Path_app; [exact H1|]. econstructor; eauto.
  Qed.

  Lemma sum_through M k : enumerates M whole -> k < length E ->
    sum (fun ks => if in_dec Nat.eq_dec k ks then weight E ks else 0%R) M = (F E (pos E k) * exp (scr E k) * B len E (end_ E k))%R.
  Proof.
    intros [HN HM] Hk. set (b := fun ks => if in_dec Nat.eq_dec k ks then true else false).
    rewrite (sum_ext _ (fun ks => if b ks then weight E ks else 0%R)) by (intros ks _; unfold b; destruct (in_dec Nat.eq_dec k ks); reflexivity).
    rewrite <- sum_filter. destruct (F_enum Hne Hin (pos E k)) as [HF1 HF2]. destruct (B_enum Hne Hin (end_ E k)) as [HB1 HB2]. unfold F, B.
    set (PA := rpaths E (S (pos E k)) (pos E k)) in *. set (PB := spaths E (S len) (end_ E k)) in *.
    set (T := flat_map (fun a => map (fun c => a ++ k :: c) PB) PA).
    assert (HT : forall ks, In ks T <-> whole ks /\ In k ks).
    { intros ks. unfold T. rewrite in_flat_map. split.
      - intros (a & Ha & H). apply in_map_iff in H as (c & <- & Hc). split; [|apply in_or_app; right; now left]. apply whole_split. apply HF2 in Ha. apply HB2 in Hc. auto.
      - intros [Hw Hk']. apply in_split in Hk' as (a & c & ->). apply whole_split in Hw as (_ & Ha & Hc). exists a. split; [now apply HF2|]. apply in_map_iff. exists c. split; [reflexivity|now apply HB2]. }
    assert (HTN : NoDup T).
    { assert (Huniq : forall a c a' c', from_root E (pos E k) a -> to_sink E (end_ E k) c -> a ++ k :: c = a' ++ k :: c' -> a = a' /\ c = c').
      { intros a c a' c' Ha Hc. apply split_unique. assert (Hw : whole (a ++ k :: c)) by (apply whole_split; auto). destruct Hw as (_ & r & q & _ & _ & HP). eapply Path_NoDup; eauto. }
      apply NoDup_flat_map; [exact HF1| |].
      - intros a Ha. apply NoDup_map_inj; [exact HB1|]. intros c c' Hc Hc' Heq. apply HF2 in Ha. apply HB2 in Hc. now destruct (Huniq _ _ _ _ Ha Hc Heq).
      - intros a a' ks Ha Ha' H1 H2. apply in_map_iff in H1 as (c & <- & Hc). apply in_map_iff in H2 as (c' & Heq & Hc'). apply HF2 in Ha. apply HB2 in Hc. now destruct (Huniq _ _ _ _ Ha Hc (eq_sym Heq)). }
    assert (Hperm : Permutation (filter b M) T).
    { apply NoDup_Permutation; [now apply NoDup_filter|exact HTN|]. intros ks. rewrite filter_In, HT, HM. unfold b. destruct (in_dec Nat.eq_dec k ks); intuition discriminate. }
    rewrite (sum_perm _ Hperm).
    unfold T. rewrite sum_flat_map. rewrite (sum_ext _ (fun a => (exp (scr E k) * sum (weight E) PB) * weight E a)%R).
    - rewrite sum_scal. lra.
    - intros a _. rewrite sum_map. rewrite (sum_ext _ (fun c => (weight E a * exp (scr E k)) * weight E c)%R); [rewrite sum_scal; lra|].
      intros c _. change (k :: c) with ([k] ++ c). rewrite !weight_app, (weight_one E Hk). lra.
  Qed.

  (** ** Occurrences *)
  Lemma sum_indices (g : nat -> R) p q ks : Path E p q ks -> sum g ks = sum (fun k => if in_dec Nat.eq_dec k ks then g k else 0%R) (seq 0 (length E)).
  Proof.
    intros HP. set (b := fun k => if in_dec Nat.eq_dec k ks then true else false).
    rewrite (sum_ext (fun k => if in_dec Nat.eq_dec k ks then g k else 0%R) (fun k => if b k then g k else 0%R)) by (intros k _; unfold b; destruct (in_dec Nat.eq_dec k ks); reflexivity).
    rewrite <- sum_filter. apply sum_perm, NoDup_Permutation; [eapply Path_NoDup; eauto|apply NoDup_filter, seq_NoDup|].
    intros k. rewrite filter_In, in_seq. unfold b. split.
    - intros H. destruct (Path_indices k HP H) as [Hk _]. split; [lia|]. destruct (in_dec Nat.eq_dec k ks); [reflexivity|contradiction].
    - intros [_ H]. destruct (in_dec Nat.eq_dec k ks); [assumption|discriminate].
  Qed.
  Lemma occurrences_sum t p q ks : Path E p q ks -> occurrences E t ks = sum (fun k => if N.eq_dec (id E k) t then 1%R else 0%R) ks.
  Proof.
    unfold occurrences, ids_of. induction 1 as [|k e ks q Hk HP IH]; [reflexivity|]. rewrite sum_cons, <- IH. unfold spans_of, id. cbn [flat_map]. rewrite Hk. cbn [app map count_occ].
    destruct (N.eq_dec (s_id e) t); [rewrite S_INR; lra|lra].
  Qed.
  Lemma sum_occurrences M t : enumerates M whole ->
    sum (fun ks => occurrences E t ks * weight E ks)%R M =
    sum (fun k => if N.eq_dec (id E k) t then F E (pos E k) * exp (scr E k) * B len E (end_ E k) else 0)%R (seq 0 (length E)).
  Proof.
    intros HM. transitivity (sum (fun ks => sum (fun k => if N.eq_dec (id E k) t then (if in_dec Nat.eq_dec k ks then weight E ks else 0) else 0)%R (seq 0 (length E))) M).
    - apply sum_ext. intros ks Hks. apply HM in Hks as (_ & r & q & _ & _ & HP). rewrite (occurrences_sum t HP), (sum_indices _ HP), Rmult_comm, <- sum_scal. apply sum_ext. intros k _.
      destruct (in_dec Nat.eq_dec k ks), (N.eq_dec (id E k) t); lra.
    - rewrite sum_swap. apply sum_ext. intros k Hk. apply in_seq in Hk. destruct (N.eq_dec (id E k) t).
      + apply sum_through; [exact HM|lia].
      + clear. induction M as [|x M IH]; [reflexivity|]. rewrite sum_cons, IH. lra.
  Qed.
End Through.

Section Reachable.
  Variables (len : nat) (E : list (span R)).
  Hypothesis Hne : non_empty E.
  Hypothesis Hin : Forall (fun e => s_end e <= len) E.

  Lemma Root_0 : Root E 0.
  Proof. intros e He. assert (H := proj1 (Forall_forall _ _) Hne e He). cbv beta in H. unfold s_end. lia. Qed.
  Lemma Sink_len : Sink E len.
  Proof. intros e He. assert (H := proj1 (Forall_forall _ _) Hne e He). assert (H2 := proj1 (Forall_forall _ _) Hin e He). cbv beta in *. unfold s_end in *. lia. Qed.
  Lemma from_root_complete ks : starts_reachable E len -> from_root E len ks <-> Path E 0 len ks.
  Proof.
    intros [H1 H2]. split; [|intros H; exists 0; split; [apply Root_0|exact H]]. intros (r & Hr & HP). assert (r = 0); [|now subst].
    destruct ks as [|k ks].
    - inversion HP; subst. destruct H2 as [H2|(e & He & He2)]; [exact H2|]. destruct (Hr e He He2).
    - inversion HP as [|? e ? ? Hk HP1]; subst. destruct (H1 e (nth_error_In _ _ Hk)) as [H|(e' & He' & Hx)]; [exact H|]. destruct (Hr e' He' Hx).
  Qed.
  Lemma whole_complete ks : starts_reachable E len -> ends_continued E len -> whole E ks <-> ks <> [] /\ Path E 0 len ks.
  Proof.
    intros HR [H1 H2]. split.
    - intros (Hn & r & q & Hr & Hq & HP). split; [exact Hn|]. apply from_root_complete; [exact HR|]. exists r. split; [exact Hr|]. assert (q = len); [|now subst].
      destruct ks as [|k ks _] using rev_ind; [congruence|]. apply Path_snoc_inv in HP as (e & Hk & He & _). subst q. destruct (H1 e (nth_error_In _ _ Hk)) as [H|(e' & He' & Hx)]; [exact H|]. destruct (Hq e' He' Hx).
    - intros [Hn HP]. split; [exact Hn|]. exists 0, len. splits; [apply Root_0|apply Sink_len|exact HP].
  Qed.
End Reachable.
