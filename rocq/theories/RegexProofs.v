(** The matcher finds what the specification says; the parser is compositional. *)
From Coq.Strings Require Import String.
From Verif Require Import Base BaseProofs Utf8 SpecUtf8 Utf8Proofs SpecJson Json SpecRegex Regex.
Set Implicit Arguments.
Local Open Scope list_scope.

Notation length := List.length (only parsing).

Scheme Match_mut := Minimality for Match Sort Prop with Iter_mut := Minimality for Iter Sort Prop.
Combined Scheme Match_Iter_ind from Match_mut, Iter_mut.

(** ** Matches *)
Lemma Match_bounds w : (forall r i j, Match w r i j -> i <= j <= length w) /\ (forall r n i j, Iter w r n i j -> i <= j <= length w).
Proof.
  apply Match_Iter_ind; intros; try lia.
  assert (i < length w) by (apply nth_error_Some; congruence). lia.
Qed.

Section Steps.
  Variables (w : list N) (a : re).
  Variable step : nat -> list nat.
  Hypothesis Hstep : forall i j, i <= length w -> In j (step i) <-> Match w a i j.

  Lemma step_set from : Forall (fun i => i <= length w) from ->
    forall j, In j (nodup Nat.eq_dec (flat_map step from)) <-> exists i, In i from /\ Match w a i j.
  Proof.
    intros Hf j. rewrite nodup_In, in_flat_map. rewrite Forall_forall in Hf.
    split; intros (i & Hi & H); exists i; split; auto; apply Hstep; auto.
  Qed.
  Lemma step_bound from : Forall (fun i => i <= length w) from -> Forall (fun i => i <= length w) (nodup Nat.eq_dec (flat_map step from)).
  Proof.
    intros Hf. apply Forall_forall. intros j Hj. apply step_set in Hj; auto. destruct Hj as (i & _ & H).
    apply (proj1 (Match_bounds w)) in H. lia.
  Qed.
  Lemma exactly_spec k : forall from, Forall (fun i => i <= length w) from ->
    forall j, In j (exactly step k from) <-> exists i, In i from /\ Iter w a k i j.
  Proof.
    induction k as [|k IH]; intros from Hf j; simpl.
    - split.
      + intros H. exists j. split; auto. constructor. rewrite Forall_forall in Hf. auto.
      + intros (i & Hi & H). inversion H; subst; auto.
    - rewrite IH by (apply step_bound; auto). split.
      + intros (m & Hm & H). apply step_set in Hm; auto. destruct Hm as (i & Hi & Hm). exists i. split; auto. econstructor; eauto.
      + intros (i & Hi & H). inversion H; subst. exists j0. split; auto. apply step_set; auto. eauto.
  Qed.
  Lemma exactly_bound k from : Forall (fun i => i <= length w) from -> Forall (fun i => i <= length w) (exactly step k from).
  Proof.
    intros Hf. apply Forall_forall. intros j Hj. apply exactly_spec in Hj; auto. destruct Hj as (i & _ & H).
    apply (proj2 (Match_bounds w)) in H. lia.
  Qed.
  Lemma up_to_spec k : forall from, Forall (fun i => i <= length w) from ->
    forall j, In j (up_to step k from) <-> exists i n, In i from /\ n <= k /\ Iter w a n i j.
  Proof.
    induction k as [|k IH]; intros from Hf j; simpl up_to.
    - split.
      + intros H. exists j, 0. repeat split; auto. constructor. rewrite Forall_forall in Hf. auto.
      + intros (i & n & Hi & Hn & H). replace n with 0 in H by lia. inversion H; subst; auto.
    - rewrite nodup_In, in_app_iff, IH by (apply step_bound; auto). split.
      + intros [H|(m & n & Hm & Hn & H)].
        * exists j, 0. repeat split; auto. lia. constructor. rewrite Forall_forall in Hf. auto.
        * apply step_set in Hm; auto. destruct Hm as (i & Hi & Hm). exists i, (S n). repeat split; auto. lia. econstructor; eauto.
      + intros (i & n & Hi & Hn & H). inversion H as [a0 i0 Hle|a0 n0 i0 m j0 Hm H']; subst.
        * auto.
        * right. exists m, n0. repeat split; auto. apply step_set; auto. eauto. lia.
  Qed.
End Steps.

(** Loops can be left out. *)
Lemma Iter_shorten w a n i j : Iter w a n i j -> exists n', n' <= n /\ n' <= j - i /\ Iter w a n' i j.
Proof.
  revert i j. induction n as [|n IH]; intros i j H; inversion H as [|a0 n0 i0 m j0 Hm HI]; subst.
  - exists 0. repeat split; auto; lia.
  - destruct (IH _ _ HI) as (n' & H1 & H2 & H3).
    pose proof (proj1 (Match_bounds w) _ _ _ Hm). pose proof (proj2 (Match_bounds w) _ _ _ _ HI).
    destruct (Nat.eq_dec i m) as [->|Hne].
    + exists n'. repeat split; auto.
    + exists (S n'). repeat split; try lia. econstructor; eauto.
Qed.
Lemma Iter_split w a n : forall m i j, Iter w a (n + m) i j -> exists k, Iter w a n i k /\ Iter w a m k j.
Proof.
  induction n as [|n IH]; intros m i j H; simpl in H.
  - exists i. split; auto. constructor. apply (proj2 (Match_bounds w)) in H. lia.
  - inversion H as [|a0 n0 i0 k j0 Hk HI]; subst. destruct (IH _ _ _ HI) as (k' & H1 & H2). exists k'. split; auto. econstructor; eauto.
Qed.
Lemma Iter_app w a n : forall m i k j, Iter w a n i k -> Iter w a m k j -> Iter w a (n + m) i j.
Proof.
  induction n as [|n IH]; intros m i k j H1 H2; inversion H1; subst; simpl; auto. econstructor; eauto.
Qed.

(** The matcher is right. *)
Theorem ends_spec w r : forall i j, i <= length w -> In j (ends w r i) <-> Match w r i j.
Proof.
  induction r as [|p|f|a IHa b IHb|a IHa b IHb|min max g a IHa]; intros i j Hi; simpl ends.
  - split. intros [<-|[]]. constructor; auto. intros H. inversion H; subst. left; auto.
  - split.
    + destruct (nth_error w i) as [c|] eqn:E; [|intros []]. destruct (p c) eqn:E2; [|intros []].
      intros [<-|[]]. econstructor; eauto.
    + intros H. inversion H as [|p0 i0 c H1 H2| | | | |]; subst. rewrite H1, H2. left; auto.
  - split.
    + destruct (f w i) eqn:E; [|intros []]. intros [<-|[]]. constructor; auto.
    + intros H. inversion H as [| |f0 i0 H1 H2| | | |]; subst. rewrite H2. left; auto.
  - rewrite in_flat_map. split.
    + intros (k & H1 & H2). apply IHa in H1; auto. pose proof (proj1 (Match_bounds w) _ _ _ H1). apply IHb in H2; [|lia]. econstructor; eauto.
    + intros H. inversion H; subst. exists j0. pose proof (proj1 (Match_bounds w) _ _ _ H2). split; [apply IHa|apply IHb]; auto. lia.
  - rewrite in_app_iff, IHa, IHb by auto. split.
    + intros [H|H]; [apply M_left|apply M_right]; auto.
    + intros H. inversion H; subst; auto.
  - assert (H1 : Forall (fun i => i <= length w) [i]) by auto.
    assert (Hex : forall j, In j (exactly (ends w a) min [i]) <-> Iter w a min i j).
    { intros k. rewrite (exactly_spec _ IHa min H1). split. intros (i' & [<-|[]] & H); auto. intros H. exists i. split; auto. left; auto. }
    pose proof (exactly_bound _ IHa min H1) as Hb.
    destruct max as [m|].
    + destruct (Nat.leb_spec min m) as [Hm|Hm].
      * rewrite (up_to_spec _ IHa _ Hb). split.
        -- intros (k & n & H2 & H3 & H4). apply Hex in H2. econstructor. eapply Iter_app; eauto. lia. simpl. lia.
        -- intros H. inversion H as [| | | | | |min0 max0 g0 a0 n i0 j0 HI Hmin Hmax]; subst. simpl in Hmax.
           replace n with (min + (n - min)) in HI by lia. apply Iter_split in HI. destruct HI as (k & H2 & H3).
           apply Iter_shorten in H3. destruct H3 as (n' & H4 & H5 & H6). exists k, n'. repeat split; auto. apply Hex; auto.
           apply (proj2 (Match_bounds w)) in H6. lia.
      * assert (forall k, up_to (ends w a) k [] = []) as Hnil by (induction k; simpl; auto; rewrite IHk; auto).
        rewrite Hnil. split. intros []. intros H. inversion H as [| | | | | |min0 max0 g0 a0 n i0 j0 HI Hmin Hmax]; subst. simpl in Hmax. lia.
    + rewrite (up_to_spec _ IHa _ Hb). split.
      * intros (k & n & H2 & H3 & H4). apply Hex in H2. econstructor. eapply Iter_app; eauto. lia. simpl. auto.
      * intros H. inversion H as [| | | | | |min0 max0 g0 a0 n i0 j0 HI Hmin Hmax]; subst.
        replace n with (min + (n - min)) in HI by lia. apply Iter_split in HI. destruct HI as (k & H2 & H3).
        apply Iter_shorten in H3. destruct H3 as (n' & H4 & H5 & H6). exists k, n'. repeat split; auto. apply Hex; auto.
        apply (proj2 (Match_bounds w)) in H6. lia.
Qed.

Theorem matches_somewhere_spec r w : matches_somewhere r w = true <-> Somewhere w r.
Proof.
  unfold matches_somewhere. rewrite existsb_exists. split.
  - intros (i & Hi & H). apply in_seq in Hi. destruct (ends w r i) as [|j l] eqn:E; [discriminate H|].
    exists i, j. apply ends_spec. lia. rewrite E. left; auto.
  - intros (i & j & H). pose proof (proj1 (Match_bounds w) _ _ _ H). exists i. split. apply in_seq. lia.
    apply ends_spec in H; [|lia]. destruct (ends w r i); auto.
Qed.
