(** Proofs about the search for matches. *)
From Verif Require Import Base BaseProofs SpecRegex Regex RegexProofs SpecFind Find.
Set Implicit Arguments.
Local Ltac splits := repeat match goal with |- _ /\ _ => split end.

Lemma In_more_or g l i j : In j (more_or g l i) <-> In j l \/ j = i.
Proof. unfold more_or. destruct g; [rewrite in_app_iff|]; simpl; firstorder. Qed.
Lemma Match_le w r i j : Match w r i j -> i <= j <= length w.
Proof. apply (proj1 (Match_bounds w)). Qed.
Lemma Iter_le w r n i j : Iter w r n i j -> i <= j <= length w.
Proof. apply (proj2 (Match_bounds w)). Qed.

(** ** What is tried is what matches *)
Section Loops.
  Variables (w : list N) (a : re).
  Hypothesis Ha : forall i j, i <= length w -> In j (tries w a i) <-> Match w a i j.
  Lemma times_spec k : forall i j, i <= length w -> In j (times (tries w a) k i) <-> Iter w a k i j.
  Proof.
    induction k as [|k IH]; intros i j Hi; simpl.
    - split. intros [<-|[]]. constructor; auto. intros H. inversion H; auto.
    - rewrite in_flat_map. split.
      + intros (m & H1 & H2). apply Ha in H1; auto. pose proof (Match_le H1). apply IH in H2; [|lia]. econstructor; eauto.
      + intros H. inversion H as [|? ? ? m ? H1 H2]; subst. exists m. pose proof (Match_le H1). rewrite Ha, IH by lia. auto.
  Qed.
  Lemma optional_spec g k : forall i j, i <= length w -> In j (optional (tries w a) g k i) <-> exists n, n <= k /\ Iter w a n i j.
  Proof.
    induction k as [|k IH]; intros i j Hi; simpl.
    - split. intros [<-|[]]. exists 0. split; auto. constructor; auto. intros (n & Hn & H). assert (n = 0) by lia. subst. inversion H; auto.
    - rewrite In_more_or, in_flat_map. split.
      + intros [(m & H1 & H2)| ->].
        * apply Ha in H1; auto. pose proof (Match_le H1). apply IH in H2; [|lia]. destruct H2 as (n & Hn & H2). exists (S n). split; [lia|econstructor; eauto].
        * exists 0. split; [lia|constructor; auto].
      + intros (n & Hn & H). inversion H as [|? n' ? m ? H1 H2]; subst; auto. left. exists m. pose proof (Match_le H1).
        rewrite Ha, IH by lia. split; auto. exists n'. split; auto; lia.
  Qed.
  Lemma plus_spec g fuel : forall i j, i <= length w -> length w - i < fuel -> In j (plus (tries w a) g fuel i) <-> exists n, Iter w a (S n) i j.
  Proof.
    induction fuel as [|fuel IH]; intros i j Hi Hf; [lia|]. cbn [plus]. rewrite in_flat_map. split.
    - intros (m & H1 & H2). apply Ha in H1; auto. pose proof (Match_le H1). apply In_more_or in H2. destruct H2 as [H2| ->].
      + destruct (m =? i) eqn:E; [destruct H2|]. apply Nat.eqb_neq in E. apply IH in H2; [|lia|lia]. destruct H2 as (n & H2). exists (S n). econstructor; eauto.
      + exists 0. econstructor; eauto. constructor; lia.
    - intros (n & H). induction n as [|n IHn].
      + inversion H as [|? ? ? m ? H1 H2]; subst. inversion H2; subst. exists j. rewrite Ha, In_more_or by auto. auto.
      + inversion H as [|? ? ? m ? H1 H2]; subst. pose proof (Match_le H1). destruct (Nat.eq_dec m i) as [->|Hm]; [auto|].
        exists m. rewrite Ha, In_more_or by auto. split; auto. left. rewrite (proj2 (Nat.eqb_neq _ _) Hm).
        apply IH; [lia|lia|eauto].
  Qed.
End Loops.

Theorem tries_spec w r : forall i j, i <= length w -> In j (tries w r i) <-> Match w r i j.
Proof.
  induction r as [|p|f|a IHa b IHb|a IHa b IHb|min max g a IHa]; intros i j Hi; cbn [tries].
  - split. intros [<-|[]]. constructor; auto. intros H. inversion H; subst. left; auto.
  - split.
    + destruct (nth_error w i) as [c|] eqn:E; [|intros []]. destruct (p c) eqn:Ep; [|intros []]. intros [<-|[]]. econstructor; eauto.
    + intros H. inversion H as [|p0 i0 c Hc Hp| | | | | ]; subst. rewrite Hc, Hp. left; auto.
  - split.
    + destruct (f w i) eqn:E; [|intros []]. intros [<-|[]]. constructor; auto.
    + intros H. inversion H as [| |f0 i0 Hl Hf| | | |]; subst. rewrite Hf. left; auto.
  - rewrite in_flat_map. split.
    + intros (m & H1 & H2). apply IHa in H1; auto. pose proof (Match_le H1). apply IHb in H2; [|lia]. econstructor; eauto.
    + intros H. inversion H as [| | |a0 b0 i0 m j0 H1 H2| | |]; subst. pose proof (Match_le H1). exists m. rewrite IHa, IHb by lia. auto.
  - rewrite in_app_iff, IHa, IHb by auto. split. intros [H|H]; [apply M_left|apply M_right]; auto. intros H. inversion H; auto.
  - assert (forall n, Iter w a n i j -> i <= j <= length w) as Hb by (intros n; apply Iter_le). destruct max as [m|].
    + destruct (min <=? m) eqn:E; [apply Nat.leb_le in E|apply Nat.leb_gt in E].
      * rewrite in_flat_map. split.
        -- intros (q & H1 & H2). rewrite times_spec in H1 by auto. pose proof (Iter_le H1). rewrite optional_spec in H2 by (auto; lia).
           destruct H2 as (n & Hn & H2). apply M_rep with (n := min + n); [eapply Iter_app; eauto|lia|simpl; lia].
        -- intros H. inversion H as [| | | | | |min0 max0 g0 a0 n i0 j0 HI Hmin Hmax]; subst. simpl in Hmax.
           replace n with (min + (n - min)) in HI by lia. apply Iter_split in HI. destruct HI as (q & H1 & H2). pose proof (Iter_le H1).
           exists q. rewrite times_spec, optional_spec by (auto; lia). split; auto. exists (n - min). split; auto; lia.
      * split; [intros []|]. intros H. inversion H as [| | | | | |min0 max0 g0 a0 n i0 j0 HI Hmin Hmax]; subst. simpl in Hmax. lia.
    + destruct min as [|k].
      * rewrite In_more_or, plus_spec by (auto; lia). split.
        -- intros [(n & H)| ->]; [apply M_rep with (n := S n)|apply M_rep with (n := 0)]; simpl; auto; try lia. constructor; auto.
        -- intros H. inversion H as [| | | | | |min0 max0 g0 a0 n i0 j0 HI Hmin Hmax]; subst. destruct n as [|n]; [right; inversion HI; auto|left; eauto].
      * rewrite in_flat_map. split.
        -- intros (q & H1 & H2). rewrite times_spec in H1 by auto. pose proof (Iter_le H1). rewrite plus_spec in H2 by (auto; lia).
           destruct H2 as (n & H2). apply M_rep with (n := k + S n); [eapply Iter_app; eauto|lia|simpl; auto].
        -- intros H. inversion H as [| | | | | |min0 max0 g0 a0 n i0 j0 HI Hmin Hmax]; subst.
           replace n with (k + (S (n - k - 1))) in HI by lia. apply Iter_split in HI. destruct HI as (q & H1 & H2). pose proof (Iter_le H1).
           exists q. rewrite times_spec, plus_spec by (auto; lia). eauto.
Qed.

(** ** The order *)
Fixpoint all (w : list N) (k : list todo) (i : nat) : list nat :=
  match k with
  | [] => [i]
  | Do r :: k => flat_map (all w k) (tries w r i)
  | Again g a from :: k => if i =? from then all w k i else flat_map (all w k) (tries w (Rep 0 None g a) i)
  end.
Lemma all_do w r k i : all w (Do r :: k) i = flat_map (all w k) (tries w r i). Proof. reflexivity. Qed.
Lemma flat_map_comp A B C (f : A -> list B) (g : B -> list C) l : flat_map g (flat_map f l) = flat_map (fun x => flat_map g (f x)) l.
Proof. induction l as [|x l IH]; simpl; auto. rewrite flat_map_app, IH. auto. Qed.
Lemma flat_map_ext_In A B (f g : A -> list B) l : (forall x, In x l -> f x = g x) -> flat_map f l = flat_map g l.
Proof. induction l as [|x l IH]; intros H; simpl; auto. rewrite H, IH; auto. intros; apply H; right; auto. left; auto. Qed.
Lemma flat_map_nil_all A B (f : A -> list B) l : (forall x, f x = []) -> flat_map f l = [].
Proof. intros H. induction l as [|x l IH]; simpl; auto. rewrite H, IH. auto. Qed.
Definition both (g : bool) (more less : list nat) : list nat := if g then more ++ less else less ++ more.
Lemma flat_map_more_or A (f : nat -> list A) g l i : flat_map f (more_or g l i) = if g then flat_map f l ++ f i else f i ++ flat_map f l.
Proof. unfold more_or. destruct g; simpl; auto. rewrite flat_map_app. simpl. rewrite app_nil_r. auto. Qed.
Lemma all_possible w k : forall i, i <= length w -> Possible w k i <-> all w k i <> [].
Proof.
  assert (forall (f : nat -> list nat) l, flat_map f l <> [] <-> exists x, In x l /\ f x <> []) as Hne.
  { intros f l. induction l as [|x l IH]; simpl. split; [congruence|intros (x & [] & _)]. destruct (f x) eqn:E; simpl.
    - rewrite IH. split. intros (y & H1 & H2). eauto. intros (y & [<-|H1] & H2); [congruence|eauto].
    - split; [intros _; exists x; rewrite E; split; auto; congruence|congruence]. }
  induction k as [|[r|g a from] k IH]; intros i Hi.
  - split; [simpl; congruence|constructor].
  - rewrite all_do, Hne. split.
    + intros H. inversion H as [|? ? ? j H1 H2| |]; subst. pose proof (Match_le H1). exists j. rewrite tries_spec, <- IH by lia. auto.
    + intros (j & H1 & H2). rewrite tries_spec in H1 by auto. pose proof (Match_le H1). econstructor; eauto. apply IH; auto; lia.
  - cbn [all]. destruct (i =? from) eqn:E; [apply Nat.eqb_eq in E; subst|apply Nat.eqb_neq in E].
    + rewrite <- IH by auto. split; intros H; [inversion H; subst; auto; congruence|constructor; auto].
    + rewrite Hne. split.
      * intros H. inversion H as [| | |? ? ? ? ? j H0 H1 H2]; subst; [congruence|]. pose proof (Match_le H1). exists j. rewrite tries_spec, <- IH by lia. auto.
      * intros (j & H1 & H2). rewrite tries_spec in H1 by auto. pose proof (Match_le H1). eapply P_again; eauto. apply IH; auto; lia.
Qed.
Lemma plus_fuel w a g f1 : forall f2 i, i <= length w -> length w - i < f1 -> length w - i < f2 -> plus (tries w a) g f1 i = plus (tries w a) g f2 i.
Proof.
  induction f1 as [|f1 IH]; intros f2 i Hi H1 H2; [lia|]. destruct f2 as [|f2]; [lia|]. cbn [plus]. apply flat_map_ext_In. intros j Hj.
  apply tries_spec in Hj; auto. apply Match_le in Hj. destruct (j =? i) eqn:E; auto. apply Nat.eqb_neq in E. f_equal. apply IH; lia.
Qed.
Lemma all_plus w a g k i : i <= length w ->
  flat_map (all w k) (plus (tries w a) g (S (length w)) i) = all w (Do a :: Again g a i :: k) i.
Proof.
  intros Hi. rewrite all_do. cbn [plus]. rewrite flat_map_comp. apply flat_map_ext_In. intros j Hj. apply tries_spec in Hj; auto. apply Match_le in Hj.
  cbn [all]. destruct (j =? i) eqn:E.
  - unfold more_or. destruct g; simpl; rewrite app_nil_r; auto.
  - apply Nat.eqb_neq in E. cbn [tries]. rewrite (@plus_fuel w a g (length w) (S (length w)) j) by lia. auto.
Qed.
Lemma all_star w a g k i : i <= length w ->
  flat_map (all w k) (tries w (Rep 0 None g a) i) = both g (all w (Do a :: Again g a i :: k) i) (all w k i).
Proof. intros Hi. cbn [tries]. rewrite flat_map_more_or, all_plus by auto. reflexivity. Qed.
Lemma all_min w min max g a k i : at_most 1 max ->
  all w (Do (Rep (S (S min)) max g a) :: k) i = all w (Do a :: Do (Rep (S min) (option_map pred max) g a) :: k) i.
Proof.
  intros Hm. rewrite !all_do. destruct max as [m|]; cbn [option_map].
  - simpl in Hm. destruct m as [|m]; [lia|]. cbn [pred tries]. change (S (S min) <=? S m) with (S min <=? m). destruct (S min <=? m) eqn:E.
    + cbn [times]. rewrite !flat_map_comp. apply flat_map_ext. intros j. rewrite all_do. cbn [tries]. rewrite E. cbn [times]. rewrite !flat_map_comp. reflexivity.
    + symmetry. apply flat_map_nil_all. intros j. rewrite all_do. cbn [tries]. rewrite E. auto.
  - cbn [tries times]. rewrite !flat_map_comp. apply flat_map_ext. intros j. rewrite all_do. cbn [tries]. rewrite !flat_map_comp. auto.
Qed.

Lemma all_one w m g a k i : all w (Do (Rep 1 (Some (S m)) g a) :: k) i = all w (Do a :: Do (Rep 0 (Some m) g a) :: k) i.
Proof.
  rewrite !all_do. cbn [tries Nat.leb times]. rewrite flat_map_comp. rewrite flat_map_comp. apply flat_map_ext. intros j. rewrite all_do. cbn [tries Nat.leb times].
  simpl. rewrite !app_nil_r, ?Nat.sub_0_r. auto.
Qed.
Lemma all_none w g a k i : all w (Do (Rep 0 (Some 0) g a) :: k) i = all w k i.
Proof. simpl. apply app_nil_r. Qed.
Lemma all_some w m g a k i :
  all w (Do (Rep 0 (Some (S m)) g a) :: k) i = both g (all w (Do a :: Do (Rep 0 (Some m) g a) :: k) i) (all w k i).
Proof.
  rewrite !all_do. cbn [tries Nat.leb times flat_map Nat.sub optional]. rewrite app_nil_r, flat_map_more_or, flat_map_comp.
  rewrite (@flat_map_ext _ _ (fun x => flat_map (all w k) (optional (tries w a) g m x)) (all w (Do (Rep 0 (Some m) g a) :: k))). reflexivity.
  intros j. rewrite all_do. cbn [tries Nat.leb times flat_map]. rewrite app_nil_r, Nat.sub_0_r. auto.
Qed.
Lemma all_times_1 w a g k i : i <= length w -> all w (Do (Rep 1 None g a) :: k) i = all w (Do a :: Again g a i :: k) i.
Proof. intros Hi. rewrite <- all_plus by auto. rewrite all_do. cbn [tries times]. cbn [flat_map]. rewrite app_nil_r. auto. Qed.
Lemma all_cat w a b k i : all w (Do (Cat a b) :: k) i = all w (Do a :: Do b :: k) i.
Proof. rewrite !all_do. cbn [tries]. rewrite flat_map_comp. auto. Qed.
Lemma all_alt w a b k i : all w (Do (Alt a b) :: k) i = both true (all w (Do a :: k) i) (all w (Do b :: k) i).
Proof. rewrite !all_do. cbn [tries]. apply flat_map_app. Qed.

Lemma either_hd w g more less i k : i <= length w -> either w g more less i k -> hd_error (both g (all w more i) (all w less i)) = hd_error (all w k i).
Proof.
  intros Hi H. unfold either, both in *.
  assert (forall k, ~ Possible w k i -> all w k i = []) as Hn by (intros q Hq; rewrite all_possible in Hq by auto; destruct (all w q i); auto; exfalso; apply Hq; congruence).
  assert (forall k l, Possible w k i -> hd_error (all w k i ++ l) = hd_error (all w k i)) as Hp
    by (intros q l Hq; rewrite all_possible in Hq by auto; destruct (all w q i); auto; congruence).
  destruct g; destruct H as [[H ->]|[H ->]]; auto; rewrite (Hn _ H); reflexivity.
Qed.
Lemma either_ex w g more less i : i <= length w -> exists k, either w g more less i k.
Proof.
  intros Hi. unfold either. assert (forall k, Possible w k i \/ ~ Possible w k i) as Hd.
  { intros k. rewrite all_possible by auto. destruct (all w k i); [right|left]; congruence. }
  destruct g; [destruct (Hd more)|destruct (Hd less)]; eauto.
Qed.

Lemma Picks_hd w k i j : Picks w k i j -> i <= length w -> hd_error (all w k i) = Some j.
Proof.
  induction 1 as [i|k i j H IH|p c k i j Hc Hp H IH|f k i j Hf H IH|a b k i j H IH|a b k k' i j He H IH|min max g a k i j Hm H IH|m g a k i j H IH
    |g a k i j H IH|g a k i j H IH|m g a k k' i j He H IH|g a k k' i j He H IH|g a k i j H IH|g a from k k' i j Hfr He H IH]; intros Hi.
  - reflexivity.
  - simpl. rewrite app_nil_r. auto.
  - assert (i < length w) by (apply nth_error_Some; congruence). simpl. rewrite Hc, Hp. simpl. rewrite app_nil_r. apply IH; lia.
  - simpl. rewrite Hf. simpl. rewrite app_nil_r. auto.
  - rewrite all_cat. auto.
  - rewrite all_alt. rewrite (@either_hd _ _ _ _ _ _ Hi He). auto.
  - rewrite all_min by auto. auto.
  - rewrite all_one. auto.
  - rewrite all_times_1 by auto. auto.
  - rewrite all_none. auto.
  - rewrite all_some. rewrite (@either_hd _ _ _ _ _ _ Hi He). auto.
  - rewrite all_do, all_star by auto. rewrite (@either_hd _ _ _ _ _ _ Hi He). auto.
  - cbn [all]. rewrite Nat.eqb_refl. auto.
  - cbn [all]. rewrite (proj2 (Nat.eqb_neq _ _)) by congruence. rewrite all_star by auto. rewrite (@either_hd _ _ _ _ _ _ Hi He). auto.
Qed.

(** From [m] on, the first way to do [k] is picked. *)
Definition picked (w : list N) (m : nat) (k : list todo) : Prop := forall i j, m <= i <= length w -> hd_error (all w k i) = Some j -> Picks w k i j.
Lemma picked_up w m m' k : m <= m' -> picked w m k -> picked w m' k.
Proof. intros Hm H i j Hi. apply H. lia. Qed.
Lemma picked_either w g more less m i j k : m <= i <= length w -> picked w m k -> either w g more less i k ->
  hd_error (both g (all w more i) (all w less i)) = Some j -> Picks w k i j.
Proof. intros Hi Hk He H. rewrite (@either_hd _ _ _ _ _ _ (proj2 Hi) He) in H. auto. Qed.
Lemma either_in w g more less i k : either w g more less i k -> k = more \/ k = less.
Proof. unfold either. destruct g; intros [[_ ->]|[_ ->]]; auto. Qed.
Section Picked.
  Variables (w : list N) (a : re).
  Hypothesis Ha : forall m k, picked w m k -> picked w m (Do a :: k).
  Lemma picked_again g k m : picked w m k -> forall n i, m <= i -> length w - i <= n -> picked w i (Again g a i :: k).
  Proof.
    intros Hk. induction n as [|n IH]; intros i Hi Hn q j Hq H; cbn [all] in H; destruct (q =? i) eqn:E.
    1,3: apply Nat.eqb_eq in E; subst; apply K_leave; apply Hk; auto; lia.
    - apply Nat.eqb_neq in E. lia.
    - apply Nat.eqb_neq in E. rewrite all_star in H by lia. destruct (@either_ex w g (Do a :: Again g a q :: k) k q) as (k' & He); [lia|].
      apply K_again with (k' := k'); auto.
      assert (picked w q k') as Hp. { destruct (@either_in _ _ _ _ _ _ He) as [-> | ->]. apply Ha. apply IH; lia. eapply picked_up; [|exact Hk]; lia. }
      eapply picked_either; [|exact Hp|exact He|exact H]. lia.
  Qed.
  Lemma picked_some g m k : picked w m k -> forall n, picked w m (Do (Rep 0 (Some n) g a) :: k).
  Proof.
    intros Hk. induction n as [|n IH]; intros i j Hi H.
    - rewrite all_none in H. apply K_rep_zero. auto.
    - rewrite all_some in H. destruct (@either_ex w g (Do a :: Do (Rep 0 (Some n) g a) :: k) k i) as (k' & He); [lia|]. apply K_rep_some with (k' := k'); auto.
      eapply picked_either with (m := m); [lia| |exact He|exact H]. destruct (@either_in _ _ _ _ _ _ He) as [-> | ->]; auto.
  Qed.
  Lemma picked_rep g m k : picked w m k -> forall min max, picked w m (Do (Rep min max g a) :: k).
  Proof.
    intros Hk. induction min as [|[|min] IH]; intros max i j Hi H.
    - destruct max as [n|]; [eapply picked_some; eauto|]. rewrite all_do, all_star in H by lia.
      destruct (@either_ex w g (Do a :: Again g a i :: k) k i) as (k' & He); [lia|]. apply K_star with (k' := k'); auto.
      assert (picked w i k') as Hp.
      { destruct (@either_in _ _ _ _ _ _ He) as [-> | ->]. apply Ha. apply picked_again with (m := m) (n := length w); auto; lia. eapply picked_up; [|exact Hk]; lia. }
      eapply picked_either; [|exact Hp|exact He|exact H]. lia.
    - destruct max as [[|n]|].
      + discriminate H.
      + rewrite all_one in H. apply K_rep_one. apply (Ha (picked_some g Hk n)); auto.
      + rewrite all_times_1 in H by lia. apply K_plus.
        assert (picked w i (Again g a i :: k)) as Hp by (apply picked_again with (m := m) (n := length w); auto; lia). apply (Ha Hp); auto; lia.
    - destruct max as [[|n]|].
      + discriminate H.
      + rewrite all_min in H by (simpl; lia). apply K_rep_min; [simpl; lia|]. apply (Ha (IH _)); auto.
      + rewrite all_min in H by (simpl; auto). apply K_rep_min; [simpl; auto|]. apply (Ha (IH _)); auto.
  Qed.
End Picked.
Lemma picked_do w r : forall m k, picked w m k -> picked w m (Do r :: k).
Proof.
  induction r as [|p|f|a IHa b IHb|a IHa b IHb|min max g a IHa]; intros m k Hk.
  - intros i j Hi H. apply K_empty. simpl in H. rewrite app_nil_r in H. auto.
  - intros i j Hi H. simpl in H. destruct (nth_error w i) as [c|] eqn:E; [|discriminate H]. destruct (p c) eqn:Ep; [|discriminate H].
    assert (i < length w) by (apply nth_error_Some; congruence). simpl in H. rewrite app_nil_r in H. eapply K_one; eauto. apply Hk; auto; lia.
  - intros i j Hi H. simpl in H. destruct (f w i) eqn:E; [|discriminate H]. simpl in H. rewrite app_nil_r in H. apply K_look; auto.
  - intros i j Hi H. rewrite all_cat in H. apply K_cat. apply (IHa _ _ (IHb _ _ Hk)); auto.
  - intros i j Hi H. rewrite all_alt in H. destruct (@either_ex w true (Do a :: k) (Do b :: k) i) as (k' & He); [lia|]. eapply K_alt; eauto.
    eapply picked_either with (m := m); [lia| |exact He|exact H]. destruct (@either_in _ _ _ _ _ _ He) as [-> | ->]; auto.
  - apply picked_rep; auto.
Qed.
Lemma all_single w r i : all w [Do r] i = tries w r i.
Proof. rewrite all_do. generalize (tries w r i). intros l. induction l as [|x l IH]; simpl; auto. f_equal; auto. Qed.
Theorem choice_spec w r i j : Choice w r i j <-> i <= length w /\ hd_error (tries w r i) = Some j.
Proof.
  unfold Choice. rewrite <- all_single. split; intros [Hi H]; split; auto.
  - apply Picks_hd; auto.
  - eapply picked_do with (m := 0); [|lia|exact H]. intros q q' Hq H'. simpl in H'. inversion H'; subst. constructor.
Qed.
Lemma choice_match w r i j : Choice w r i j -> Match w r i j.
Proof. intros H. apply choice_spec in H. destruct H as [Hi H]. apply tries_spec; auto. destruct (tries w r i); inversion H; subst; left; auto. Qed.
Lemma match_choice w r i j : Match w r i j -> exists j', Choice w r i j'.
Proof.
  intros H. pose proof (Match_le H) as Hl. assert (i <= length w) by lia. apply tries_spec in H; auto. destruct (tries w r i) as [|j' l] eqn:E; [destruct H|].
  exists j'. apply choice_spec. rewrite E. auto.
Qed.
Lemma choice_fun w r i j j' : Choice w r i j -> Choice w r i j' -> j = j'.
Proof. rewrite !choice_spec. intros [_ H] [_ H']. congruence. Qed.

(** ** The search *)
Lemma no_tries w r i : i <= length w -> tries w r i = [] -> forall j, ~ Match w r i j.
Proof. intros Hi H j Hm. apply tries_spec in Hm; auto. rewrite H in Hm. destruct Hm. Qed.
Lemma search_spec w r n : forall i, i + n <= S (length w) ->
  match search w r n i with
  | Some (p, j) => i <= p < i + n /\ (forall q x, i <= q < p -> ~ Match w r q x) /\ Choice w r p j
  | None => forall q x, i <= q < i + n -> ~ Match w r q x
  end.
Proof.
  induction n as [|n IH]; intros i Hi; cbn [search]; [intros; lia|]. destruct (tries w r i) as [|j l] eqn:E.
  - assert (forall j, ~ Match w r i j) as Hn by (apply no_tries; auto; lia). specialize (IH (S i) ltac:(lia)). destruct (search w r n (S i)) as [[p j]|].
    + destruct IH as (H1 & H2 & H3). splits; try lia; auto. intros q x Hq. destruct (Nat.eq_dec q i) as [->|]; auto. apply H2; lia.
    + intros q x Hq. destruct (Nat.eq_dec q i) as [->|]; auto. apply IH; lia.
  - splits; try lia. apply choice_spec. rewrite E. split; auto; lia.
Qed.
Lemma search_from_spec w r i : i <= S (length w) ->
  match search_from w r i with
  | Some (p, j) => i <= p /\ (forall q x, i <= q < p -> ~ Match w r q x) /\ Choice w r p j
  | None => forall q x, i <= q -> ~ Match w r q x
  end.
Proof.
  intros Hi. unfold search_from. pose proof (@search_spec w r (S (length w) - i) i ltac:(lia)) as H. destruct (search w r (S (length w) - i) i) as [[p j]|].
  - destruct H as (H1 & H2 & H3). splits; auto; lia.
  - intros q x Hq Hm. pose proof (Match_le Hm). apply (H q x); auto; lia.
Qed.
Definition is_end (last : option nat) (start : nat) : bool := match last with Some l => l =? start | None => false end.
Lemma find_loop_finds w r fuel : forall start last, start <= length w -> (last = None \/ last = Some start) ->
  length w - start + match last with None => 2 | Some _ => 1 end <= fuel -> Finds w r (is_end last start) start (find_loop fuel w r start last).
Proof.
  induction fuel as [|fuel IH]; intros start last Hs Hl Hf; [destruct last; lia|]. cbn [find_loop].
  pose proof (@search_from_spec w r start ltac:(lia)) as H. destruct (search_from w r start) as [[i j]|].
  - destruct H as (H1 & H2 & H3). pose proof (Match_le (choice_match H3)) as Hij.
    destruct ((i =? j) && match last with Some l => l =? j | None => false end) eqn:E.
    + apply andb_true_iff in E. destruct E as [E1 E2]. apply Nat.eqb_eq in E1. subst j. destruct last as [l|]; [|discriminate E2]. apply Nat.eqb_eq in E2. subst l.
      destruct Hl as [Hl|Hl]; inversion Hl; subst i. simpl. rewrite Nat.eqb_refl. apply F_skip; auto.
      pose proof (@search_from_spec w r (S start) ltac:(lia)) as H. destruct (search_from w r (S start)) as [[i j]|].
      * destruct H as (G1 & G2 & G3). pose proof (Match_le (choice_match G3)). apply F_found; auto.
        { intros (G & _). discriminate G. }
        assert (is_end (Some j) j = true) as <- by apply Nat.eqb_refl. apply IH; auto; lia.
      * apply F_none. auto.
    + apply F_found; auto.
      * intros (G & -> & ->). unfold is_end in G. rewrite Nat.eqb_refl, G in E. discriminate E.
      * assert (is_end (Some j) j = true) as <- by apply Nat.eqb_refl. apply IH; auto; [lia|]. destruct last as [l|]; [|lia]. destruct Hl as [Hl|Hl]; inversion Hl; subst l.
        apply andb_false_iff in E. rewrite !Nat.eqb_neq in E. lia.
  - apply F_none. auto.
Qed.
Theorem find_all_finds w r : Finds w r false 0 (find_all w r).
Proof. unfold find_all. apply (@find_loop_finds w r (length w + 2) 0 None); auto; lia. Qed.
Lemma Finds_fun w r b start l l' : Finds w r b start l -> Finds w r b start l' -> l = l'.
Proof.
  intros H. revert l'. induction H as [b start H|b start i j l H1 H2 H3 H4 H IH|start l H1 H IH]; intros l' H'.
  - inversion H' as [|? ? i j ? G1 G2 G3|? ? G1 ?]; subst; auto; exfalso; eapply H; try (eapply choice_match; eassumption); auto.
  - pose proof (choice_match H3) as Hm. inversion H' as [? ? G|? ? i' j' l2 G1 G2 G3 G4 G|? ? G1 ?]; subst.
    + exfalso. eapply G; eauto.
    + pose proof (choice_match G3) as Hm'. assert (i = i') as ->. { destruct (lt_eq_lt_dec i i') as [[Hlt|]|Hlt]; auto; exfalso; [apply (G2 i j)|apply (H2 i' j')]; auto; lia. }
      pose proof (choice_fun H3 G3). subst j'. f_equal. auto.
    + exfalso. destruct (Nat.eq_dec i start) as [->|Hne].
      * apply H4. splits; auto. eapply choice_fun; eauto.
      * eapply H2; [|eapply choice_match; exact G1]. lia.
  - pose proof (choice_match H1) as Hm. inversion H' as [? ? G|? ? i' j' l2 G1 G2 G3 G4 G|? ? G1 ?]; subst; auto.
    + exfalso. apply (G start start); auto.
    + exfalso. destruct (Nat.eq_dec i' start) as [->|Hne].
      * apply G4. splits; auto. eapply choice_fun; eauto.
      * apply (G2 start start); auto. lia.
Qed.
