(** The search finds all paths there are, if there are fewer than asked for; any arithmetic. *)
From Coq Require Import Permutation.
From Verif Require Import Base F64 Trie Model BaseProofs Lattice SpecLattice LatticeProofs PopulateProofs NbestSearch NbestProofs.
Set Implicit Arguments.

Lemma app_last_inv {X} (a b : list X) x y : a ++ [x] = b ++ [y] -> a = b.
Proof. intros H. now apply app_inj_tail in H. Qed.
Lemma idx_app_inv ks : forall w b, idx ks = w ++ idx b -> exists a, w = idx a /\ ks = a ++ b.
Proof.
  induction ks as [|k ks IH]; intros w b H.
  - symmetry in H. apply app_eq_nil in H as [-> H]. exists []. destruct b; [auto|discriminate].
  - destruct w as [|x w]; simpl in H.
    + exists []. split; [reflexivity|]. apply idx_inj. exact H.
    + injection H as <- H. destruct (IH _ _ H) as (a & -> & ->). exists (k :: a). auto.
Qed.
Lemma path_split {S} (E : list (span S)) a b : forall p q, Path E p q (a ++ b) -> exists m, Path E p m a /\ Path E m q b.
Proof.
  induction a as [|k a IH]; intros p q H; simpl in H; [exists p; split; [constructor|exact H]|]. inversion H as [|k1 e ks1 q1 Hk HP]; subst.
  destruct (IH _ _ HP) as (m & H1 & H2). exists m. split; [|exact H2]. econstructor; eauto.
Qed.
Lemma path_same {S} (E : list (span S)) p p' q ks : Path E p q ks -> Path E p' q ks -> p = p'.
Proof.
  intros H H'. destruct ks as [|k ks].
  - assert (p = q) by (inversion H; reflexivity). assert (p' = q) by (inversion H'; reflexivity). congruence.
  - assert (exists e, nth_error E k = Some e /\ s_pos e = p) as (e & He & <-) by (inversion H; subst; eauto).
    assert (exists e, nth_error E k = Some e /\ s_pos e = p') as (e' & He' & <-) by (inversion H'; subst; eauto). congruence.
Qed.

Section All.
  Context {S : Type} (A : arith S).
  Variables (s : bytes) (E : list (span S)) (l : lattice S).
  Hypothesis I : inv A s E l.
  Hypothesis Hne : non_empty E.
  Hypothesis Hid : Forall (fun e => (s_id e < bos_id)%N) E.
  Variable n : nat.
  Variable Q : Prop.
  Local Notation len := (length s).
  Local Notation G := (all_spans A (length s) E).
  (** There are few tails of paths. *)
  Hypothesis Hfew : forall L, NoDup L -> Forall (fun ks => exists p, Path E p len ks) L -> (N.of_nat (length L) <= 50000)%N.

  Lemma agenda_small agenda found : ok_state A s E n agenda found -> (N.of_nat (length agenda) <= 100000)%N.
  Proof.
    intros [H1 _ H3 _]. apply all_apart_app in H3 as (H3 & _ & _). apply all_apart_NoDup in H3.
    assert (H : exists L0 L1, length agenda = length L0 + length L1 /\ (forall ks, In ks L0 -> In (full (idx ks)) (map chain agenda)) /\ (forall ks, In ks L1 -> In (idx ks ++ [1]) (map chain agenda)) /\
       NoDup L0 /\ NoDup L1 /\ Forall (fun ks => exists p, Path E p len ks) L0 /\ Forall (fun ks => exists p, Path E p len ks) L1).
    { induction agenda as [|h agenda IH]; [exists [], []; splits; auto; try constructor; intros ks []|].
      inversion H1 as [|? ? Hh H1']; subst. simpl in H3. inversion H3 as [|? ? Hni H3']; subst. destruct (IH H1' H3') as (L0 & L1 & Hl & Ha & Hb & N0 & N1 & F0 & F1).
      destruct (Nat.eq_dec (h_node h) 0) as [H0|H0].
      - destruct Hh as [[Hx _]|(ks & (Hn & p & HP & _))]; [congruence|]. assert (Ec : chain h = full (idx ks)) by (unfold chain, full; now rewrite H0, Hn).
        exists (ks :: L0), L1. splits; auto.
        + simpl. lia.
        + intros ks' [<-|Hin]; [left; exact Ec|right; auto].
        + intros ks' Hin. right. auto.
        + constructor; [|exact N0]. intros Hin. apply Hni. rewrite Ec. auto.
        + constructor; eauto.
      - destruct (hyp_tail Hh H0) as (ks & Ec & HP). exists L0, (ks :: L1). splits; auto.
        + simpl. lia.
        + intros ks' Hin. right. auto.
        + intros ks' [<-|Hin]; [left; exact Ec|right; auto].
        + constructor; [|exact N1]. intros Hin. apply Hni. rewrite Ec. auto.
        + constructor; eauto. }
    destruct H as (L0 & L1 & Hl & _ & _ & N0 & N1 & F0 & F1). assert (X0 := Hfew N0 F0). assert (X1 := Hfew N1 F1). lia.
  Qed.

  (** Every path was found or continues a hypothesis. *)
  Definition covered (agenda : list (@hypothesis S)) (found : list (list nat)) : Prop :=
    forall ks, Path E 0 len ks -> In (idx ks) found \/ exists h, In h agenda /\ suffix (chain h) (full (idx ks)).
  Lemma covered_perm agenda agenda' found : Permutation agenda agenda' -> covered agenda found -> covered agenda' found.
  Proof. intros HP H ks Hks. destruct (H ks Hks) as [H'|(h & Hh & Hs)]; [now left|right]. exists h. split; [eapply Permutation_in; eauto|exact Hs]. Qed.

  Lemma covered_found top rest found ks : h_node top = 0 -> leads A s E top ks -> covered (top :: rest) found -> covered rest (found ++ [idx ks]).
  Proof.
    intros H0 Hl H p HP. destruct (H p HP) as [H'|(h & [<-|Hh] & Hs)].
    - left. apply in_or_app. now left.
    - left. apply in_or_app. right. left. destruct Hs as (w & Hw). unfold chain in Hw. rewrite H0, (proj1 Hl) in Hw. destruct w as [|x w].
      + unfold full in Hw. simpl in Hw. injection Hw as Hw. now apply app_last_inv in Hw.
      + exfalso. unfold full in Hw. simpl in Hw. injection Hw as _ Hw. assert (Hin : In 0 (idx p ++ [1])) by (rewrite Hw; apply in_or_app; right; now left).
        apply in_app_iff in Hin as [Hin|[Hin|[]]]; [|discriminate]. apply in_map_iff in Hin as (k & Hk & _). discriminate.
    - right. exists h. auto.
  Qed.
  Lemma covered_expand top rest found : hyp_ok A s E top -> h_node top <> 0 -> covered (top :: rest) found ->
    covered (rest ++ map (child A s E l top) (ends G (pos_of G (h_node top)))) found.
  Proof.
    intros Ht H0 H ks HP. destruct (H ks HP) as [H'|(h & [<-|Hh] & Hs)]; [now left| |].
    - right. destruct (hyp_tail Ht H0) as (b & Hc & HPb). destruct Hs as (w & Hw). destruct w as [|x w] using rev_ind; [exfalso; unfold full, chain in Hw; simpl in Hw; congruence|]. clear IHw.
      rewrite <- app_assoc in Hw. exists (child A s E l top x). split; [|exists w; exact Hw]. apply in_or_app. right. apply in_map. destruct w as [|y w].
      + unfold full in Hw. simpl in Hw. injection Hw as <- Hw. rewrite Hc in Hw. apply app_last_inv, idx_inj in Hw. subst b.
        apply ends_spec. split; [discriminate|]. exists (bos_span A). split; [reflexivity|]. unfold s_end. simpl. exact (path_same HP HPb).
      + unfold full in Hw. simpl in Hw. injection Hw as _ Hw. change (x :: chain top) with ([x] ++ chain top) in Hw. rewrite Hc, !app_assoc in Hw. apply app_last_inv in Hw.
        apply idx_app_inv in Hw as (a & Ha & ->). destruct a as [|k a] using rev_ind; [now destruct w|]. clear IHa. unfold idx in Ha. rewrite map_app in Ha. apply app_inj_tail in Ha as [_ ->].
        destruct (path_split _ _ HP) as (m & HPa & HPm). apply Path_snoc_inv in HPa as (e & Hk & He & _). apply ends_spec. split; [discriminate|]. exists e. split; [exact Hk|].
        rewrite He. exact (path_same HPm HPb).
    - right. exists h. split; [apply in_or_app; now left|exact Hs].
  Qed.

  Definition all_search (st : @search S) : Prop :=
    match st with
    | Running agenda found => covered agenda found
    | Stopped (Ok found) => length found = n \/ forall ks, Path E 0 len ks -> In (idx ks) found
    | Stopped _ => True
    end.
  Lemma all_step st st' : ok_search A s E n st -> all_search st -> search_step A Q l n st st' -> all_search st'.
  Proof.
    intros Hok Hall H. destruct H as [found|agenda top rest found path HPop Hv Hlen|agenda top rest found path HPop Hv Hlen|agenda top rest found hs agenda' HPop Hv Hs|agenda top rest found HPop Hv]; simpl in Hok, Hall |- *; auto.
    1: { right. intros ks HP. destruct (Hall ks HP) as [H|(h & [] & _)]; exact H. }
    all: apply (ok_state_perm (proj1 HPop)) in Hok; apply (covered_perm (proj1 HPop)) in Hall; assert (Ht : hyp_ok A s E top) by (destruct Hok as [H1 _ _ _]; now inversion H1);
      destruct (visit_spec I Hne Hid Ht) as [(H0 & ks & Hl & HP & Hv')|(H0 & Hv')]; rewrite Hv in Hv'; try discriminate.
    - injection Hv' as ->. eapply covered_found; eauto.
    - injection Hv' as ->. apply (ok_expand_step l H0) in Hok. apply (covered_expand Ht H0) in Hall. unfold shrinks in Hs. assert (Hsm := agenda_small Hok).
      destruct (N.ltb_spec k_max_agenda_size (N.of_nat (length (rest ++ map (child A s E l top) (ends G (pos_of G (h_node top))))))) as [Hlt|_]; [exfalso; unfold k_max_agenda_size in Hlt; lia|]. now subst agenda'.
  Qed.
  Lemma all_runs st r : ok_search A s E n st -> all_search st -> search_runs A Q l n st r ->
    forall found, r = Ok found -> length found = n \/ forall ks, Path E 0 len ks -> In (idx ks) found.
  Proof.
    intros Hok Hall H. induction H as [r|st st' r Hs H IH].
    - intros found ->. exact Hall.
    - apply IH; [eapply ok_step; eauto|eapply all_step; eauto].
  Qed.
  Lemma all_first h : first_hypothesis l = Ok h -> all_search (Running [h] []).
  Proof.
    intros Hh. unfold first_hypothesis in Hh. apply bind_Ok in Hh as (e & _ & Hh). injection Hh as <-. intros ks _. right. eexists. split; [now left|].
    exists (0 :: idx ks). reflexivity.
  Qed.
End All.
