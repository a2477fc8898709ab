(** Proofs about the strings of the patterns. *)
From Verif Require Import Base BaseProofs SpecRegex Regex RegexProofs SpecPatterns FindProofs.
Set Implicit Arguments.
Local Ltac splits := repeat match goal with |- _ /\ _ => split end.

(** An expression without loops in loops, as shapes. *)
Definition bpart : Type := ((N -> bool) * nat * option nat)%type.
Fixpoint class_of (r : re) : option (N -> bool) :=
  match r with
  | One p => Some p
  | Alt a b => match class_of a, class_of b with Some p, Some q => Some (union p q) | _, _ => None end
  | _ => None
  end.
Fixpoint flat (r : re) : option (list (list bpart)) :=
  match r with
  | Empty => Some [[]]
  | One p => Some [[(p, 1, Some 1)]]
  | Look _ => None
  | Cat a b => match flat a, flat b with Some x, Some y => Some (flat_map (fun s => map (app s) y) x) | _, _ => None end
  | Alt a b => match flat a, flat b with Some x, Some y => Some (x ++ y) | _, _ => None end
  | Rep min max _ a => match class_of a with Some p => Some [[(p, min, max)]] | None => None end
  end.
Definition props (s : list bpart) : list part := map (fun x => let '(p, min, max) := x in (fun c => p c = true, min, max)) s.
(** [cs] are the characters of [w] from [i] to [j]. *)
Definition segment (w : list N) (i j : nat) (cs : list N) : Prop := exists a b, w = a ++ cs ++ b /\ length a = i /\ length (a ++ cs) = j.

Lemma Parts_app s : forall t cs, Parts (s ++ t) cs <-> exists a b, cs = a ++ b /\ Parts s a /\ Parts t b.
Proof.
  induction s as [|[[P min] max] s IH]; intros t cs; cbn [app]; split.
  - intros H. exists [], cs. splits; auto. constructor.
  - intros (a & b & -> & H1 & H2). inversion H1; subst. exact H2.
  - intros H. inversion H as [|? ? ? ? x rest H1 H2 H3 H4]; subst. apply IH in H4 as (a & b & -> & H4 & H5). exists (x ++ a), b. rewrite app_assoc. splits; auto. constructor; auto.
  - intros (a & b & -> & H1 & H2). inversion H1 as [|? ? ? ? x rest G1 G2 G3 G4]; subst. rewrite <- app_assoc. constructor; auto. apply IH. exists rest, b. auto.
Qed.
Lemma segment_one w i c : nth_error w i = Some c -> segment w i (S i) [c].
Proof.
  intros H. apply nth_error_split in H as (a & b & -> & Hl). exists a, b. splits; auto. rewrite app_length. simpl. lia.
Qed.
Lemma segment_nth w i j c : segment w i j [c] -> nth_error w i = Some c /\ j = S i.
Proof. intros (a & b & -> & <- & <-). split. rewrite nth_error_app2, Nat.sub_diag by lia. reflexivity. rewrite app_length. simpl. lia. Qed.
Lemma segment_nil w i : i <= length w -> segment w i i [].
Proof. intros H. exists (firstn i w), (skipn i w). simpl. rewrite firstn_skipn, app_nil_r, firstn_length. splits; auto; lia. Qed.
Lemma segment_app w i j k cs ds : segment w i j cs -> segment w j k ds -> segment w i k (cs ++ ds).
Proof.
  intros (a & b & -> & <- & <-) (a' & b' & E & Hl & <-). rewrite app_assoc in E.
  assert (a' = a ++ cs /\ b = ds ++ b') as [-> ->].
  { clear - E Hl. revert a' Hl E. generalize (a ++ cs). intros l. induction l as [|x l IH]; intros [|y a'] Hl E; simpl in *; try lia; auto. injection E as -> E. destruct (IH a') as [-> ->]; auto. }
  exists a, b'. rewrite !app_length. splits; auto; try lia. now rewrite <- !app_assoc.
Qed.
Lemma segment_split w i k cs ds : segment w i k (cs ++ ds) -> exists j, segment w i j cs /\ segment w j k ds.
Proof.
  intros (a & b & -> & <- & <-). exists (length (a ++ cs)). split.
  - exists a, (ds ++ b). rewrite <- !app_assoc. auto.
  - exists (a ++ cs), b. rewrite <- !app_assoc. auto.
Qed.
Lemma segment_le w i j cs : segment w i j cs -> i <= j <= length w.
Proof. intros (a & b & -> & <- & <-). rewrite !app_length. lia. Qed.

Lemma class_of_spec w r : forall p, class_of r = Some p -> forall i j, Match w r i j <-> exists c, segment w i j [c] /\ p c = true.
Proof.
  induction r as [|q|f|a IHa b IHb|a IHa b IHb|min max g a IHa]; intros p H i j; try discriminate H.
  - injection H as ->. split.
    + intros H. inversion H; subst. eauto using segment_one.
    + intros (c & H1 & H2). apply segment_nth in H1 as [H1 ->]. econstructor; eauto.
  - cbn [class_of] in H. destruct (class_of a) as [p1|]; [|discriminate H]. destruct (class_of b) as [p2|]; [|discriminate H]. injection H as <-. split.
    + intros H. inversion H as [| | | |? ? ? ? H1|? ? ? ? H1|]; subst; [apply (IHa _ eq_refl) in H1|apply (IHb _ eq_refl) in H1]; destruct H1 as (c & H1 & H2); exists c; unfold union; rewrite H2, ?orb_true_r; auto.
    + intros (c & H1 & H2). unfold union in H2. apply orb_true_iff in H2 as [H2|H2]; [apply M_left, (IHa _ eq_refl)|apply M_right, (IHb _ eq_refl)]; eauto.
Qed.
Lemma Iter_class w a p : class_of a = Some p -> forall n i j, Iter w a n i j <-> exists cs, segment w i j cs /\ length cs = n /\ Forall (fun c => p c = true) cs.
Proof.
  intros Ha. induction n as [|n IH]; intros i j; split.
  - intros H. inversion H; subst. exists []. splits; auto. now apply segment_nil.
  - intros (cs & H1 & H2 & H3). destruct cs; [|discriminate H2]. pose proof (segment_le H1). destruct H1 as (a' & b' & -> & <- & E). rewrite app_nil_r in E. rewrite E. constructor. lia.
  - intros H. inversion H as [|? ? ? m ? H1 H2]; subst. apply (@class_of_spec _ _ _ Ha) in H1 as (c & H1 & Hc). apply IH in H2 as (cs & H2 & Hl & HF).
    exists (c :: cs). splits; simpl; auto. apply (segment_app H1 H2).
  - intros (cs & H1 & H2 & H3). destruct cs as [|c cs]; [discriminate H2|]. injection H2 as H2. apply (segment_split [c] cs) in H1 as (m & H1 & H4). inversion H3; subst.
    econstructor. apply (@class_of_spec _ _ _ Ha); eauto. apply IH. eauto.
Qed.
Theorem flat_spec w r : forall ss, flat r = Some ss -> forall i j, Match w r i j <-> exists s cs, In s ss /\ segment w i j cs /\ Parts (props s) cs.
Proof.
  induction r as [|q|f|a IHa b IHb|a IHa b IHb|min max g a IHa]; intros ss H i j; try discriminate H; cbn [flat] in H.
  - injection H as <-. split.
    + intros H. inversion H; subst. exists [], []. splits; [left; auto|now apply segment_nil|constructor].
    + intros (s & cs & [<-|[]] & H1 & H2). inversion H2; subst. pose proof (segment_le H1). destruct H1 as (a' & b' & -> & <- & E). rewrite app_nil_r in E. rewrite E. constructor. lia.
  - injection H as <-. split.
    + intros H. inversion H as [|? ? c Hc Hq| | | | |]; subst. exists [(q, 1, Some 1)], [c]. splits; [left; auto|now apply segment_one|]. cbn. rewrite <- (app_nil_r [c]). constructor; auto. constructor.
    + intros (s & cs & [<-|[]] & H1 & H2). inversion H2 as [|? ? ? ? x rest G1 G2 G3 G4]; subst. inversion G4; subst. destruct x as [|c [|d x]]; simpl in G2, G3; try lia.
      inversion G1; subst. cbn [app] in H1. apply segment_nth in H1 as [H1 ->]. econstructor; eauto.
  - destruct (flat a) as [x|]; [|discriminate H]. destruct (flat b) as [y|]; [|discriminate H]. injection H as <-. split.
    + intros H. inversion H as [| | |? ? ? m ? H1 H2| | |]; subst. apply (IHa _ eq_refl) in H1 as (s & cs & I1 & S1 & P1). apply (IHb _ eq_refl) in H2 as (t & ds & I2 & S2 & P2).
      exists (s ++ t), (cs ++ ds). splits; [|exact (segment_app S1 S2)|]. apply in_flat_map. exists s. split; auto. now apply in_map.
      unfold props. rewrite map_app. apply Parts_app. eauto.
    + intros (st & cs & I1 & S1 & P1). apply in_flat_map in I1 as (s & I1 & I2). apply in_map_iff in I2 as (t & <- & I2). unfold props in P1. rewrite map_app in P1.
      apply Parts_app in P1 as (cs1 & cs2 & -> & P1 & P2). apply segment_split in S1 as (m & S1 & S2). econstructor; [apply (IHa _ eq_refl)|apply (IHb _ eq_refl)]; eauto.
  - destruct (flat a) as [x|]; [|discriminate H]. destruct (flat b) as [y|]; [|discriminate H]. injection H as <-. split.
    + intros H. inversion H as [| | | |? ? ? ? H1|? ? ? ? H1|]; subst; [apply (IHa _ eq_refl) in H1|apply (IHb _ eq_refl) in H1]; destruct H1 as (s & cs & I1 & H1); exists s, cs; rewrite in_app_iff; auto.
    + intros (s & cs & I1 & H1). apply in_app_iff in I1 as [I1|I1]; [apply M_left, (IHa _ eq_refl)|apply M_right, (IHb _ eq_refl)]; eauto.
  - destruct (class_of a) as [p|] eqn:Ha; [|discriminate H]. injection H as <-. split.
    + intros H. inversion H as [| | | | | |? ? ? ? n ? ? HI Hmin Hmax]; subst. apply (@Iter_class _ _ _ Ha) in HI as (cs & S1 & <- & HF). exists [(p, min, max)], cs. splits; [left; auto|auto|].
      cbn. rewrite <- (app_nil_r cs). constructor; auto. constructor.
    + intros (s & cs & [<-|[]] & S1 & P1). inversion P1 as [|? ? ? ? x rest G1 G2 G3 G4]; subst. inversion G4; subst. rewrite app_nil_r in S1.
      apply M_rep with (n := length x); auto. apply (@Iter_class _ _ _ Ha). eauto.
Qed.
(** The same shapes. *)
Definition same_part (x : bpart) (y : part) : Prop := snd (fst x) = snd (fst y) /\ snd x = snd y /\ forall c, fst (fst x) c = true <-> fst (fst y) c.
Lemma same_parts s t : Forall2 same_part s t -> forall cs, Parts (props s) cs <-> Parts t cs.
Proof.
  assert (forall (P Q : N -> Prop), (forall c, P c -> Q c) -> forall l, Forall P l -> Forall Q l) as HI by (intros P Q H l HF; eapply Forall_impl; eauto).
  induction 1 as [|[[p min] max] [[P min'] max'] s t (E1 & E2 & HP) H IH]; intros cs; cbn [props map] in *; [reflexivity|]. cbn [fst snd] in *. subst min' max'. split.
  - intros G. inversion G as [|? ? ? ? x rest G1 G2 G3 G4]; subst. constructor; auto. eapply HI; [|exact G1]. intros c; apply HP. now apply IH.
  - intros G. inversion G as [|? ? ? ? x rest G1 G2 G3 G4]; subst. constructor; auto. eapply HI; [|exact G1]. intros c; apply HP. now apply IH.
Qed.
Theorem flat_shaped r ss shapes : flat r = Some ss -> (forall s, In s ss -> exists t, In t shapes /\ Forall2 same_part s t) ->
  (forall t, In t shapes -> exists s, In s ss /\ Forall2 same_part s t) -> forall w, Whole w r <-> Shaped shapes w.
Proof.
  intros Hf H1 H2 w. unfold Whole, Shaped. rewrite (@flat_spec w r _ Hf). assert (forall cs, segment w 0 (length w) cs -> cs = w) as Hs.
  { intros cs (a & b & -> & Ha & Hl). destruct a; [|discriminate Ha]. rewrite !app_length in Hl. simpl in Hl. destruct b; [now rewrite app_nil_r|simpl in Hl; lia]. }
  split.
  - intros (s & cs & I1 & S1 & P1). apply Hs in S1. subst cs. destruct (H1 s I1) as (t & I2 & HS). exists t. split; auto. now apply (same_parts HS).
  - intros (t & I1 & P1). destruct (H2 t I1) as (s & I2 & HS). exists s, w. splits; auto. exists [], []. rewrite app_nil_r. auto. now apply (same_parts HS).
Qed.
Corollary flat_shapes r ss shapes shapes' : flat r = Some ss -> Forall2 (Forall2 same_part) ss shapes -> (forall t, In t shapes <-> In t shapes') ->
  forall w, Whole w r <-> Shaped shapes' w.
Proof.
  intros Hf HF HE. apply flat_shaped with (ss := ss); auto.
  - intros s Hs. clear Hf. induction HF as [|x y l l' H HF IH] in shapes', HE, Hs |- *; [destruct Hs|]. destruct Hs as [->|Hs].
    + exists y. split; auto. apply HE. left; auto.
    + destruct (IH l') as (t & H1 & H2); auto. reflexivity. exists t. split; auto. apply HE. right; auto.
  - intros t Ht. apply HE in Ht. clear - HF Ht. induction HF as [|x y l l' H HF IH]; [destruct Ht|]. destruct Ht as [->|Ht]; [exists x; split; auto; left; auto|]. destruct (IH Ht) as (s & H1 & H2). exists s. split; auto. right; auto.
Qed.
