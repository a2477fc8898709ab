(** The search for the best paths. *)
From Coq Require Import Permutation.
From Verif Require Import Base F64 Trie Model BaseProofs Lattice SpecLattice LatticeProofs PopulateProofs NbestSearch.
Set Implicit Arguments.

(** * Lists that are not suffixes of each other *)
Section Apart.
  Context {X : Type}.
  Definition suffix (a b : list X) : Prop := exists w, b = w ++ a.
  Definition apart (a b : list X) : Prop := ~ suffix a b /\ ~ suffix b a.
  Fixpoint all_apart (L : list (list X)) : Prop :=
    match L with [] => True | a :: L' => (forall b, In b L' -> apart a b) /\ all_apart L' end.

  Lemma suffix_refl a : suffix a a.
  Proof. exists []. reflexivity. Qed.
  Lemma suffix_cons a b x : suffix (x :: a) b -> suffix a b.
  Proof. intros (w & ->). exists (w ++ [x]). now rewrite <- app_assoc. Qed.
  Lemma suffix_of_cons a b x : suffix a (x :: b) -> a = x :: b \/ suffix a b.
  Proof. intros ([|y w] & H); [left; simpl in H; congruence|right]. injection H as -> ->. now exists w. Qed.
  Lemma apart_sym a b : apart a b -> apart b a.
  Proof. intros [H1 H2]. split; assumption. Qed.
  Lemma apart_neq a : ~ apart a a.
  Proof. intros [H _]. apply H, suffix_refl. Qed.

  Lemma all_apart_app L1 L2 : all_apart (L1 ++ L2) <-> all_apart L1 /\ all_apart L2 /\ forall a b, In a L1 -> In b L2 -> apart a b.
  Proof.
    induction L1 as [|x L1 IH]; simpl; [intuition|]. rewrite IH. split.
    - intros (H1 & H2 & H3 & H4). splits; auto.
      + intros b Hb. apply H1, in_or_app. now left.
      + intros a b [<-|Ha] Hb; [apply H1, in_or_app; now right|auto].
    - intros ((H1 & H2) & H3 & H4). splits; auto. intros b Hb. apply in_app_iff in Hb as [Hb|Hb]; auto.
  Qed.
  Lemma all_apart_perm L1 L2 : Permutation L1 L2 -> all_apart L1 -> all_apart L2.
  Proof.
    induction 1 as [|x L1 L2 HP IH|x y L|L1 L2 L3 H1 IH1 H2 IH2]; simpl; auto.
    - intros [Ha Hb]. split; [|auto]. intros b Hin. apply Ha. eapply Permutation_in; [symmetry|]; eauto.
    - intros (H1 & H2 & H3). splits; auto.
      + intros b [<-|Hb]; auto. apply apart_sym. auto.
  Qed.
  Lemma all_apart_NoDup L : all_apart L -> NoDup L.
  Proof. induction L as [|a L IH]; intros H; constructor; destruct H as [H1 H2]; auto. intros Hin. eapply apart_neq, H1, Hin. Qed.
  (** One list is replaced by longer ones. *)
  Lemma all_apart_grow c ls L : NoDup ls -> all_apart (c :: L) -> all_apart (L ++ map (fun x => x :: c) ls).
  Proof.
    intros HN [H1 H2]. apply all_apart_app. splits; auto.
    - clear - HN. induction HN as [|x ls Hx HN IH]; simpl; [auto|]. split; [|exact IH]. intros b Hb. apply in_map_iff in Hb as (y & <- & Hy). split.
      + intros H. apply suffix_of_cons in H as [H|(w & H)]; [congruence|]. apply (f_equal (@length X)) in H. rewrite app_length in H. simpl in H. lia.
      + intros H. apply suffix_of_cons in H as [H|(w & H)]; [congruence|]. apply (f_equal (@length X)) in H. rewrite app_length in H. simpl in H. lia.
    - intros a b Ha Hb. apply in_map_iff in Hb as (x & <- & _). destruct (H1 a Ha) as [H3 H4]. split.
      + intros H. apply suffix_of_cons in H as [->|H]; [|auto]. apply H3. exists [x]. reflexivity.
      + intros H. apply suffix_cons in H. auto.
  Qed.
End Apart.

Section Search.
  Context {S : Type} (A : arith S).
  Variables (s : bytes) (E : list (span S)) (l : lattice S).
  Hypothesis I : inv A s E l.
  Hypothesis Hne : non_empty E.
  Hypothesis Hid : Forall (fun e => (s_id e < bos_id)%N) E.
  Local Notation len := (length s).
  Local Notation G := (all_spans A (length s) E).

  Definition idx (ks : list nat) : list nat := map (fun k => 2 + k) ks.
  Definition chain (h : @hypothesis S) : list nat := h_node h :: h_next h.
  (** A hypothesis stands for the end of a path. *)
  Definition is_eos (h : @hypothesis S) : Prop := h_node h = 1 /\ h_next h = [].
  Definition leads (h : @hypothesis S) (ks : list nat) : Prop :=
    h_next h = idx ks ++ [1] /\ exists p, Path E p len ks /\ In (h_node h) (ends G p).
  Definition hyp_ok (h : @hypothesis S) : Prop := is_eos h \/ exists ks, leads h ks.

  Definition child (h : @hypothesis S) (i : nat) : hypothesis :=
    Hyp i (chain h) (a_add A (back A (l_nodes l) i) (h_gx h)) (a_add A (score A G i) (h_gx h)).

  Lemma expand_spec h lefts : (forall i, In i lefts -> i < length (l_nodes l)) -> expand A (l_nodes l) h lefts = Ok (map (child h) lefts).
  Proof.
    induction lefts as [|i lefts IH]; intros Hl; [reflexivity|]. simpl. destruct (nth_error_lt _ (Hl i (or_introl eq_refl))) as (n & Hn).
    rewrite (index_Some _ _ Hn), IH by (intros j Hj; apply Hl; now right). cbn [bind]. f_equal. f_equal. unfold child, chain.
    rewrite (@score_at _ A _ _ _ _ _ (proj1 (i_nodes I)) Hn). unfold back. now rewrite Hn.
  Qed.

  Lemma len_nodes : length (l_nodes l) = length G.
  Proof. apply (nodes_length (i_nodes I)). Qed.

  Lemma hyp_node h : hyp_ok h -> h_node h < length G /\ pos_of G (h_node h) <= len.
  Proof.
    intros [[H _]|(ks & _ & p & HP & Hin)].
    - rewrite H. split; [simpl; lia|]. change (len <= len). lia.
    - destruct (ends_before A len Hne _ _ Hin) as (_ & Hlt & Hx). split; [exact Hlt|].
      apply ends_spec in Hin as (_ & e & He & Hp). unfold pos_of. rewrite He. destruct (@G_at _ A _ _ _ _ He) as [(_ & ->)|[(_ & ->)|(k & _ & Hk)]]; [simpl; lia|simpl; lia|].
      assert (H := proj1 (Forall_forall _ _) (i_inside I) e (nth_error_In _ _ Hk)). cbv beta in H. unfold s_end in *. fold len in H. lia.
  Qed.

  Lemma Path_le p q ks : Path E p q ks -> p <= q.
  Proof. induction 1 as [|k e ks q Hk HP IH]; [lia|]. unfold s_end in IH. lia. Qed.

  Definition starts_at (h : @hypothesis S) (ks : list nat) : Prop :=
    exists w, chain h = idx w ++ [1] /\ ks = w.

  (** The tail of a path that a hypothesis other than the begin node stands for. *)
  Lemma hyp_tail h : hyp_ok h -> h_node h <> 0 -> exists ks, chain h = idx ks ++ [1] /\ Path E (pos_of G (h_node h)) len ks.
  Proof.
    intros [[H1 H2]|(ks & H & p & HP & Hin)] H0.
    - exists []. unfold chain. rewrite H1, H2. split; [reflexivity|]. unfold pos_of. simpl. constructor.
    - apply ends_spec in Hin as (H1 & e & He & Hp). destruct (@G_at _ A _ _ _ _ He) as [(E0 & _)|[(E1 & _)|(k & Ek & Hk)]]; [congruence|congruence|].
      exists (k :: ks). unfold chain. rewrite H, Ek. split; [reflexivity|]. unfold pos_of. rewrite <- Ek, He. econstructor; [exact Hk|]. now rewrite Hp.
  Qed.

  Lemma child_leads {h} i : hyp_ok h -> h_node h <> 0 -> In i (ends G (pos_of G (h_node h))) -> exists ks, chain h = idx ks ++ [1] /\ leads (child h i) ks.
  Proof.
    intros Hh H0 Hi. destruct (hyp_tail Hh H0) as (ks & Hc & HP). exists ks. split; [exact Hc|]. split; [exact Hc|]. exists (pos_of G (h_node h)). auto.
  Qed.

  Lemma id_not_bos {i e} : nth_error G i = Some e -> (s_id e = bos_id <-> i = 0).
  Proof.
    intros He. destruct (@G_at _ A _ _ _ _ He) as [(-> & ->)|[(-> & ->)|(k & -> & Hk)]].
    - split; reflexivity.
    - split; [|discriminate]. discriminate.
    - split; [|discriminate]. intros H. assert (Hx := proj1 (Forall_forall _ _) Hid e (nth_error_In _ _ Hk)). cbv beta in Hx. rewrite H in Hx. now apply N.lt_irrefl in Hx.
  Qed.

  Lemma visit_spec h : hyp_ok h ->
    (h_node h = 0 /\ exists ks, leads h ks /\ Path E 0 len ks /\ visit A l h = Ok (inl (idx ks))) \/
    (h_node h <> 0 /\ visit A l h = Ok (inr (map (child h) (ends G (pos_of G (h_node h)))))).
  Proof.
    intros Hh. destruct (hyp_node Hh) as [Hlt Hp]. destruct (nth_error_lt G Hlt) as (e & He). destruct (nodes_at _ _ (proj1 (i_nodes I)) He) as (n & Hn & Hs).
    destruct (nodes_at _ _ (proj1 (i_nodes I)) (eq_refl : nth_error G 0 = Some (bos_span A))) as (b & Hb & Hbs).
    unfold visit. rewrite (index_Some _ _ Hn). cbn [bind]. rewrite (i_bos I), (index_Some _ _ Hb). cbn [bind].
    assert (Eid : n_token_id n = s_id e) by (rewrite <- Hs; reflexivity). assert (Eb : n_token_id b = bos_id) by (change (n_token_id b) with (s_id (span_of b)); now rewrite Hbs).
    rewrite Eid, Eb. assert (HX := id_not_bos He). destruct (N.eqb_spec (s_id e) bos_id) as [E1|E1].
    - left. apply HX in E1. split; [exact E1|]. destruct Hh as [[H1 _]|(ks & Hl)]; [congruence|]. exists ks. split; [exact Hl|]. destruct Hl as (H & p & HP & Hin).
      assert (p = 0). { rewrite E1 in Hin. apply ends_spec in Hin as (_ & e0 & H0 & Hp0). injection H0 as <-. now subst p. } subst p. split; [exact HP|].
      rewrite H. destruct (idx ks ++ [1]) eqn:El; [now destruct (idx ks)|]. rewrite <- El, removelast_last. reflexivity.
    - right. assert (H0 : h_node h <> 0) by tauto. split; [exact H0|]. assert (Epos : n_pos n = pos_of G (h_node h)) by (unfold pos_of; rewrite He, <- Hs; reflexivity).
      rewrite Epos, (index_Some _ _ (i_end I Hp)). cbn [bind]. rewrite expand_spec; [reflexivity|]. intros i Hi. rewrite len_nodes. now apply (ends_before A len Hne) in Hi.
  Qed.

  (** ** Any arithmetic *)
  Variable n : nat.
  Variable Q : Prop.

  Definition full (path : list nat) : list nat := 0 :: path ++ [1].
  Definition complete (path : list nat) : Prop := exists ks, path = idx ks /\ Path E 0 len ks.
  Record ok_state (agenda : list hypothesis) (found : list (list nat)) : Prop := {
    ok_hyps : Forall hyp_ok agenda;
    ok_found : Forall complete found;
    ok_apart : all_apart (map chain agenda ++ map full found);
    ok_few : length found < n }.

  Lemma pops_many_perm k agenda kept : pops_many A Q k agenda kept -> exists dropped, Permutation agenda (kept ++ dropped) /\ length kept = k /\
    (Q -> forall h d, In h kept -> In d dropped -> a_ltb A (h_fx h) (h_fx d) = false).
  Proof.
    induction 1 as [agenda|k agenda top rest kept [HP Hmax] H (dropped & IH & Hl & Hd)].
    - exists agenda. splits; auto. intros _ h d [].
    - exists dropped. splits.
      + rewrite HP, IH. reflexivity.
      + simpl. now rewrite Hl.
      + intros Hc h d [<-|Hh] Hdd.
        * apply (Hmax Hc). eapply Permutation_in; [symmetry; exact IH|]. apply in_or_app. now right.
        * apply Hd; auto.
  Qed.
  Lemma shrinks_perm agenda agenda' : shrinks A Q n agenda agenda' -> exists dropped, Permutation agenda (agenda' ++ dropped).
  Proof.
    unfold shrinks. destruct (k_max_agenda_size <? N.of_nat (length agenda))%N.
    - intros H. apply pops_many_perm in H as (dropped & H & _). eauto.
    - intros ->. exists []. now rewrite app_nil_r.
  Qed.
  Lemma ok_state_perm agenda agenda' found : Permutation agenda agenda' -> ok_state agenda found -> ok_state agenda' found.
  Proof.
    intros HP [H1 H2 H3 H4]. constructor; auto.
    - eapply Permutation_Forall; eauto.
    - eapply all_apart_perm; [|exact H3]. apply Permutation_app_tail. now apply Permutation_map.
  Qed.
  Lemma ok_state_drop agenda dropped found : ok_state (agenda ++ dropped) found -> ok_state agenda found.
  Proof.
    intros [H1 H2 H3 H4]. constructor; auto.
    - now apply Forall_app in H1.
    - rewrite map_app, <- app_assoc in H3. apply all_apart_app in H3 as (Ha & Hb & Hc). apply all_apart_app in Hb as (_ & Hb & _). apply all_apart_app. splits; auto.
      intros a b Ha' Hb'. apply Hc; [exact Ha'|]. apply in_or_app. now right.
  Qed.

  Lemma ok_found_step top rest found ks : h_node top = 0 -> leads top ks -> Path E 0 len ks -> ok_state (top :: rest) found ->
    Forall hyp_ok rest /\ Forall complete (found ++ [idx ks]) /\ all_apart (map chain rest ++ map full (found ++ [idx ks])).
  Proof.
    intros H0 Hl HP [H1 H2 H3 H4]. splits.
    - now inversion H1.
    - apply Forall_app. split; [exact H2|]. repeat constructor. exists ks. auto.
    - eapply all_apart_perm; [|exact H3]. rewrite map_app. simpl. assert (Ec : chain top = full (idx ks)) by (unfold chain, full; rewrite H0, (proj1 Hl); reflexivity).
      rewrite Ec, app_assoc. apply Permutation_cons_append.
  Qed.
  Lemma ok_expand_step top rest found : h_node top <> 0 -> ok_state (top :: rest) found ->
    ok_state (rest ++ map (child top) (ends G (pos_of G (h_node top)))) found.
  Proof.
    intros H0 [H1 H2 H3 H4]. inversion H1 as [|? ? Ht Hr]; subst. constructor; auto.
    - apply Forall_app. split; [exact Hr|]. apply Forall_forall. intros h Hh. apply in_map_iff in Hh as (i & <- & Hi). right.
      destruct (child_leads i Ht H0 Hi) as (ks & _ & Hl). eauto.
    - rewrite map_app, map_map. change (map (fun x => chain (child top x)) ?z) with (map (fun x => x :: chain top) z).
      simpl in H3. apply all_apart_grow with (ls := ends G (pos_of G (h_node top))) in H3; [|apply ends_NoDup].
      eapply all_apart_perm; [|exact H3]. rewrite <- !app_assoc. apply Permutation_app_head. apply Permutation_app_comm.
  Qed.

  Definition ok_search (st : search) : Prop :=
    match st with
    | Running agenda found => ok_state agenda found
    | Stopped (Ok found) => Forall complete found /\ NoDup found /\ length found <= n
    | Stopped _ => False
    end.
  Lemma ok_step st st' : ok_search st -> search_step A Q l n st st' -> ok_search st'.
  Proof.
    intros Hok H. destruct H as [found|agenda top rest found path HPop Hv Hlen|agenda top rest found path HPop Hv Hlen|agenda top rest found hs agenda' HPop Hv Hs|agenda top rest found HPop Hv]; simpl in Hok |- *.
    1: { destruct Hok as [H1 H2 H3 H4]. splits; auto; [|lia]. simpl in H3. apply all_apart_NoDup in H3. now apply NoDup_map_inv in H3. }
    all: apply (ok_state_perm (proj1 HPop)) in Hok; assert (Ht : hyp_ok top) by (destruct Hok as [H1 _ _ _]; now inversion H1);
      destruct (visit_spec Ht) as [(H0 & ks & Hl & HP & Hv')|(H0 & Hv')]; rewrite Hv in Hv'; try discriminate.
    - injection Hv' as ->. destruct (ok_found_step H0 Hl HP Hok) as (_ & H2 & H3). splits; auto; [|lia].
      apply all_apart_app in H3 as (_ & H3 & _). apply all_apart_NoDup in H3. now apply NoDup_map_inv in H3.
    - injection Hv' as ->. destruct (ok_found_step H0 Hl HP Hok) as (H1 & H2 & H3). constructor; auto.
      destruct Hok as [_ _ _ H4]. rewrite app_length in *. simpl in *. lia.
    - injection Hv' as ->. apply (ok_expand_step H0) in Hok. apply shrinks_perm in Hs as (dropped & HPd). eapply ok_state_drop. eapply ok_state_perm; eauto.
  Qed.
  Lemma ok_runs st r : ok_search st -> search_runs A Q l n st r -> exists found, r = Ok found /\ Forall complete found /\ NoDup found /\ length found <= n.
  Proof.
    intros Hok H. induction H as [r|st st' r Hs H IH].
    - destruct r as [found| | |]; simpl in Hok; try contradiction. eauto.
    - apply IH. eapply ok_step; eauto.
  Qed.

  Lemma ok_first h : 1 <= n -> first_hypothesis l = Ok h -> ok_search (Running [h] []).
  Proof.
    intros Hn Hh. unfold first_hypothesis in Hh. apply bind_Ok in Hh as (e & _ & Hh). injection Hh as <-. constructor; simpl; auto.
    - repeat constructor.
    - split; [intros b []|auto].
  Qed.

  (** ** Termination *)
  Definition weight (h : @hypothesis S) : nat :=
    if h_node h =? 0 then 1 else Nat.pow (Datatypes.S (length G)) (Datatypes.S (pos_of G (h_node h))).
  Definition weights (agenda : list hypothesis) : nat := list_sum (map weight agenda).
  Lemma list_sum_perm a b : Permutation a b -> list_sum a = list_sum b.
  Proof. induction 1; simpl; lia. Qed.
  Lemma pow_pos m : 1 <= Nat.pow (Datatypes.S (length G)) m.
  Proof. apply Nat.neq_0_lt_0, Nat.pow_nonzero. discriminate. Qed.
  Lemma weight_children top : h_node top <> 0 -> list_sum (map weight (map (child top) (ends G (pos_of G (h_node top))))) < weight top.
  Proof.
    intros H0. unfold weight at 2. destruct (Nat.eqb_spec (h_node top) 0); [congruence|]. set (p := pos_of G (h_node top)).
    assert (Hle : forall ls, (forall i, In i ls -> In i (ends G p)) -> list_sum (map weight (map (child top) ls)) <= length ls * Nat.pow (Datatypes.S (length G)) p).
    { induction ls as [|i ls IH]; intros Hl; [simpl; lia|]. cbn [map list_sum fold_right length]. specialize (IH (fun j Hj => Hl j (or_intror Hj))). unfold list_sum in IH.
      assert (Hw : weight (child top i) <= Nat.pow (Datatypes.S (length G)) p).
      { unfold weight. simpl h_node. destruct (Nat.eqb_spec i 0); [apply pow_pos|]. destruct (ends_before A len Hne _ _ (Hl i (or_introl eq_refl))) as (_ & _ & [(-> & _)|(_ & Hlt)]); [congruence|].
        apply Nat.pow_le_mono_r; [lia|exact Hlt]. }
      lia. }
    specialize (Hle _ (fun i Hi => Hi)). assert (Hlen : length (ends G p) <= length G).
    { transitivity (length (seq 0 (length G))); [|rewrite seq_length; reflexivity]. unfold ends. generalize (seq 0 (length G)). intros L. induction L as [|x L IH]; simpl; [reflexivity|]. match goal with |- context[if ?c then _ else _] => destruct c end; simpl; lia. }
    rewrite Nat.pow_succ_r'. assert (Hp := pow_pos p). nia.
  Qed.
  Lemma weight_pos h : 1 <= weight h.
  Proof. unfold weight. destruct (h_node h =? 0); [lia|apply pow_pos]. Qed.

  Lemma step_decreases agenda found st' : ok_state agenda found -> search_step A Q l n (Running agenda found) st' ->
    match st' with Running agenda' found' => weights agenda' < weights agenda | Stopped _ => True end.
  Proof.
    intros Hok H. inversion H as [|? top rest ? path HPop Hv Hlen|? top rest ? path HPop Hv Hlen|? top rest ? hs agenda' HPop Hv Hs|? top rest ? HPop Hv]; subst; auto.
    - unfold weights. rewrite (list_sum_perm (Permutation_map weight (proj1 HPop))). simpl. assert (Hw := weight_pos top). lia.
    - apply (ok_state_perm (proj1 HPop)) in Hok. assert (Ht : hyp_ok top) by (destruct Hok as [H1 _ _ _]; now inversion H1).
      destruct (visit_spec Ht) as [(H0 & ks & Hl & HP & Hv')|(H0 & Hv')]; rewrite Hv in Hv'; [discriminate|]. injection Hv' as ->.
      apply shrinks_perm in Hs as (dropped & HPd). unfold weights. rewrite (list_sum_perm (Permutation_map weight (proj1 HPop))). simpl.
      apply (Permutation_map weight) in HPd. apply list_sum_perm in HPd. rewrite !map_app, !list_sum_app in HPd. assert (Hw := weight_children _ H0). lia.
  Qed.

  Theorem search_terminates st : ok_search st -> Acc (fun st2 st1 => search_step A Q l n st1 st2) st.
  Proof.
    destruct st as [agenda found|r].
    2: { intros _. constructor. intros st2 H. inversion H. }
    remember (weights agenda) as w eqn:Ew. revert agenda found Ew. induction w as [w IH] using lt_wf_ind. intros agenda found -> Hok. constructor. intros st2 Hs.
    assert (Hd := step_decreases Hok Hs). assert (Hok2 := ok_step Hok Hs). destruct st2 as [a2 f2|r2].
    - eapply IH; [exact Hd|reflexivity|exact Hok2].
    - constructor. intros st3 H. inversion H.
  Qed.

  Lemma collect_spec kss : Forall (fun ks => Path E 0 len ks) kss ->
    exists paths, collect_paths (l_nodes l) (map idx kss) = Ok paths /\ map (map span_of) paths = map (spans_of E) kss.
  Proof.
    intros HF. assert (HN : forall ks p q, Path E p q ks -> exists ns, collect_nodes (l_nodes l) (idx ks) = Ok ns /\ map span_of ns = spans_of E ks).
    { intros ks p q H. induction H as [p|k e ks q Hk HP (ns & IH1 & IH2)]; [exists []; auto|].
      destruct (nodes_at _ _ (proj1 (i_nodes I)) (Hk : nth_error G (2 + k) = Some e)) as (nd & Hnd & Hs). exists (nd :: ns). unfold idx in *. cbn [map collect_nodes]. rewrite (index_Some _ _ Hnd). cbn [bind].
      rewrite IH1. split; [reflexivity|]. simpl. rewrite Hk. simpl. now rewrite Hs, IH2. }
    induction HF as [|ks kss HP HF (paths & IH1 & IH2)]; [exists []; auto|]. destruct (HN _ _ _ HP) as (ns & H1 & H2).
    exists (ns :: paths). cbn [map collect_paths]. rewrite H1. cbn [bind]. rewrite IH1. split; [reflexivity|]. simpl. now rewrite H2, IH2.
  Qed.
  Lemma complete_paths found : Forall complete found -> exists kss, found = map idx kss /\ Forall (fun ks => Path E 0 len ks) kss.
  Proof.
    induction 1 as [|path found (ks & -> & HP) H (kss & -> & IH)]; [exists []; auto|]. exists (ks :: kss). auto.
  Qed.
  Lemma idx_inj ks ks' : idx ks = idx ks' -> ks = ks'.
  Proof. revert ks'; induction ks as [|k ks IH]; intros [|k' ks'] H; try discriminate; [reflexivity|]. injection H as -> H. f_equal. auto. Qed.
End Search.
