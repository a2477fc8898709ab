(** The search of [nbest] with a bag in place of the heap (Heap.v). *)
From Coq Require Import Permutation.
From Verif Require Import Base BaseProofs F64 Trie Model Heap HeapProofs Lattice.
Set Implicit Arguments.
Local Ltac splits := repeat match goal with |- _ /\ _ => split end.

Section Search.
  Context {S : Type}.
  Variable A : arith S.
  Notation hypothesis := (@hypothesis S).
  (** Whether the scores are ordered. *)
  Variable Q : Prop.
  (** Some hypothesis is taken; one which is not less than any other one if the scores are ordered. *)
  Definition pops (agenda : list hypothesis) (top : hypothesis) (rest : list hypothesis) : Prop :=
    Permutation agenda (top :: rest) /\ (Q -> forall h, In h rest -> a_ltb A (h_fx top) (h_fx h) = false).

  (** src/lattice.rs:224-226: [k] calls of [pop]. *)
  Inductive pops_many : nat -> list hypothesis -> list hypothesis -> Prop :=
  | pops_0 agenda : pops_many 0 agenda []
  | pops_S k agenda top rest kept : pops agenda top rest -> pops_many k rest kept -> pops_many (Datatypes.S k) agenda (top :: kept).

  Definition shrinks (n : nat) (agenda agenda' : list hypothesis) : Prop :=
    if (k_max_agenda_size <? N.of_nat (length agenda))%N
    then pops_many (N.to_nat (N.min k_min_agenda_size (N.of_nat n * 10))) agenda agenda'
    else agenda' = agenda.

  (** One turn of the loop.  [Running] holds the agenda and the hypotheses found. *)
  Inductive search :=
  | Running (agenda : list hypothesis) (found : list (list nat))
  | Stopped (r : res (list (list nat))).

  Inductive search_step (l : lattice S) (n : nat) : search -> search -> Prop :=
  | step_empty found : search_step l n (Running [] found) (Stopped (Ok found))
  | step_enough agenda top rest found path :
      pops agenda top rest -> visit A l top = Ok (inl path) -> length (found ++ [path]) = n ->
      search_step l n (Running agenda found) (Stopped (Ok (found ++ [path])))
  | step_found agenda top rest found path :
      pops agenda top rest -> visit A l top = Ok (inl path) -> length (found ++ [path]) <> n ->
      search_step l n (Running agenda found) (Running rest (found ++ [path]))
  | step_expand agenda top rest found hs agenda' :
      pops agenda top rest -> visit A l top = Ok (inr hs) -> shrinks n (rest ++ hs) agenda' ->
      search_step l n (Running agenda found) (Running agenda' found)
  | step_panic agenda top rest found :
      pops agenda top rest -> visit A l top = Panic -> search_step l n (Running agenda found) (Stopped Panic).

  Inductive search_runs (l : lattice S) (n : nat) : search -> res (list (list nat)) -> Prop :=
  | runs_stopped r : search_runs l n (Stopped r) r
  | runs_step s s' r : search_step l n s s' -> search_runs l n s' r -> search_runs l n s r.

  (** A possible result. *)
  Inductive searched (l : lattice S) : nat -> res (lattice S * list (list (node S))) -> Prop :=
  | nbest_0 : searched l 0 (Ok (l, []))
  | nbest_1 : searched l 1 ('(l', path) <- viterbi A l ;; Ok (l', [path]))
  | nbest_fail n :
      2 <= n -> first_hypothesis l = Panic \/ viterbi A l = Panic -> searched l n Panic
  | nbest_diverge n h :
      2 <= n -> first_hypothesis l = Ok h -> viterbi A l = Diverge -> searched l n Diverge
  | nbest_search n h l' path r :
      2 <= n -> first_hypothesis l = Ok h -> viterbi A l = Ok (l', path) -> search_runs l' n (Running [h] []) r ->
      searched l n (found <- r ;; paths <- collect_paths (l_nodes l') found ;; Ok (l', paths)).


  (** ** The heap behaves like the bag *)
  (** [P] is kept by the search. *)
  Variable P : hypothesis -> Prop.
  Hypothesis HQ : Q -> forall hs, Forall P hs -> Ordered (hyp_less A) hs.
  Notation less := (hyp_less A).
  Definition keeps (l : lattice S) : Prop := Q -> forall top hs, P top -> visit A l top = Ok (inr hs) -> Forall P hs.
  Definition fine (data : list hypothesis) : Prop := heap less data /\ Forall P data.

  Lemma visit_ok l top : (exists v, visit A l top = Ok v) \/ visit A l top = Panic.
  Proof.
    assert (HE : forall nodes lefts, (exists hs, expand A nodes top lefts = Ok hs) \/ expand A nodes top lefts = Panic).
    { induction lefts as [|i lefts [(hs & IH)|IH]]; [left; eexists; reflexivity| |]; cbn [expand]; unfold index; destruct (nth_error nodes i); cbn [bind]; rewrite ?IH; cbn [bind]; eauto. }
    unfold visit, index. destruct (nth_error (l_nodes l) (h_node top)); cbn [bind]; [|auto]. destruct (nth_error (l_nodes l) (l_bos l)); cbn [bind]; [|auto].
    destruct (N.eqb _ _); [destruct (h_next top); eauto|]. destruct (nth_error (l_end l) (n_pos n)); cbn [bind]; [|auto].
    destruct (HE (l_nodes l) l0) as [(hs & ->)| ->]; cbn [bind]; eauto.
  Qed.
  Lemma pops_perm a b top rest : Permutation a b -> pops b top rest -> pops a top rest.
  Proof. intros HP [H1 H2]. split; [now rewrite HP|exact H2]. Qed.
  Lemma pops_many_bag k a b kept : Permutation a b -> pops_many k b kept -> pops_many k a kept.
  Proof. intros HP H. destruct H; [constructor|]. econstructor; [eapply pops_perm; eauto|eassumption]. Qed.
  Lemma heap_pops top rest data' : Permutation data' rest -> (Q -> fine (top :: rest)) -> pops (top :: rest) top data'.
  Proof.
    intros HP Hh. split; [now rewrite HP|]. intros q h Hin. destruct (Hh q) as [Hh1 Hh2]. apply (@heap_top _ less (top :: rest) top rest (HQ q Hh2) Hh1 eq_refl). right. eapply Permutation_in; eauto.
  Qed.
  Lemma push_fine agenda h : exists agenda', heap_push less agenda h = Ok agenda' /\ Permutation agenda' (h :: agenda) /\ (Q -> fine agenda -> P h -> fine agenda').
  Proof.
    destruct (push_spec less agenda h) as (a1 & E & HP & HH). exists a1. splits; auto. intros q [H1 H2] Hh. assert (HF : Forall P (h :: agenda)) by now constructor.
    split; [apply HH; [now apply HQ|exact H1]|]. eapply Permutation_Forall; [symmetry; exact HP|exact HF].
  Qed.
  Lemma push_all_spec hs : forall agenda, exists agenda', push_all A agenda hs = Ok agenda' /\ Permutation agenda' (agenda ++ hs) /\ (Q -> fine agenda -> Forall P hs -> fine agenda').
  Proof.
    induction hs as [|h hs IH]; intros agenda; cbn [push_all].
    - exists agenda. rewrite app_nil_r. auto.
    - destruct (push_fine agenda h) as (a1 & E & HP & HH). rewrite E. cbn [bind]. destruct (IH a1) as (a2 & E2 & HP2 & HH2). exists a2. split; [exact E2|]. split.
      + rewrite HP2, HP. simpl. rewrite Permutation_middle. reflexivity.
      + intros q Hf HF. inversion HF; subst. auto.
  Qed.
  Lemma pop_fine data : (data = [] /\ heap_pop less data = Ok None) \/
    exists top rest data', data = top :: rest /\ heap_pop less data = Ok (Some (top, data')) /\ Permutation data' rest /\ (Q -> fine data -> P top /\ fine data').
  Proof.
    destruct (pop_spec less data) as [H|(top & rest & data' & -> & E & HP & HH)]; [now left|right]. exists top, rest, data'. splits; auto. intros q [H1 H2]. inversion H2 as [|? ? Ht Hr]; subst. split; [exact Ht|].
    split; [apply HH; [now apply HQ|exact H1]|]. eapply Permutation_Forall; [symmetry; exact HP|exact Hr].
  Qed.
  Lemma move_best_spec k : forall agenda new_agenda, k <= length agenda -> (Q -> fine agenda) -> exists kept new', move_best A k agenda new_agenda = Ok new' /\
    pops_many k agenda kept /\ Permutation new' (new_agenda ++ kept) /\ (Q -> fine new_agenda -> fine new').
  Proof.
    induction k as [|k IH]; intros agenda new_agenda Hk Hh; cbn [move_best].
    - exists [], new_agenda. rewrite app_nil_r. splits; auto. constructor.
    - destruct (pop_fine agenda) as [(-> & _)|(top & rest & data' & -> & E & HP & HH)]; [simpl in Hk; lia|]. rewrite E. cbn [bind].
      destruct (push_fine new_agenda top) as (n1 & E1 & HP1 & HH1). rewrite E1. cbn [bind].
      destruct (IH data' n1) as (kept & n2 & E2 & HM & HP2 & HH2); [apply Permutation_length in HP; simpl in Hk; lia|intros q; now apply HH; auto|].
      exists (top :: kept), n2. splits; auto.
      + econstructor; [eapply heap_pops; eauto|exact HM].
      + rewrite HP2, HP1. simpl. rewrite Permutation_middle. reflexivity.
      + intros q Hf. apply HH2; [exact q|]. apply HH1; auto. now apply HH; auto.
  Qed.
  Lemma loop_step l n data bag found : keeps l -> Permutation bag data -> (Q -> fine data) ->
    (exists r, search_step l n (Running bag found) (Stopped r) /\ forall fuel, nbest_loop A (Datatypes.S fuel) l n data found = r) \/
    exists bag' data' found', search_step l n (Running bag found) (Running bag' found') /\ Permutation bag' data' /\ (Q -> fine data') /\
      forall fuel, nbest_loop A (Datatypes.S fuel) l n data found = nbest_loop A fuel l n data' found'.
  Proof.
    intros HK HB Hh. cbn [nbest_loop]. destruct (pop_fine data) as [(-> & E)|(top & rest & data' & -> & E & HP & HH)]; rewrite E; cbn [bind].
    - left. exists (Ok found). split; [|reflexivity]. symmetry in HB. apply Permutation_nil in HB as ->. constructor.
    - assert (Hp : pops bag top data') by (eapply pops_perm; [exact HB|now apply heap_pops]).
      assert (Ht : Q -> P top) by (intros q; now apply HH; auto). assert (Hd : Q -> fine data') by (intros q; now apply HH; auto).
      destruct (visit_ok l top) as [([path|hs] & Ev)|Ev]; rewrite Ev; cbn [bind].
      + destruct (Nat.eqb_spec (length (found ++ [path])) n) as [En|En].
        * left. eexists. split; [|reflexivity]. eapply step_enough; eauto.
        * right. exists data', data', (found ++ [path]). splits; auto. eapply step_found; eauto.
      + right. destruct (push_all_spec hs data') as (a1 & E1 & HP1 & HH1). rewrite E1. cbn [bind]. unfold shrink.
        assert (Hl : length a1 = length (data' ++ hs)) by now apply Permutation_length.
        assert (Ha : Q -> fine a1) by (intros q; apply HH1; auto; exact (HK q top hs (Ht q) Ev)).
        destruct (N.ltb_spec k_max_agenda_size (N.of_nat (length a1))) as [Hlt|Hle].
        * destruct (@move_best_spec (N.to_nat (N.min k_min_agenda_size (N.of_nat n * 10))) a1 []) as (kept & a2 & E2 & HM & HP2 & HH2); [unfold k_max_agenda_size, k_min_agenda_size in *; lia|auto|].
          rewrite E2. cbn [bind]. exists kept, a2, found. splits; auto.
          -- eapply step_expand; eauto. unfold shrinks. rewrite <- Hl. destruct (N.ltb_spec k_max_agenda_size (N.of_nat (length a1))); [|lia].
             eapply pops_many_bag; [symmetry; exact HP1|exact HM].
          -- symmetry. exact HP2.
          -- intros q. apply HH2; auto. split; [|constructor]. intros i Hi p x _ Ex. destruct i; discriminate.
        * exists (data' ++ hs), a1, found. splits; auto; [|now symmetry]. eapply step_expand; eauto. unfold shrinks. rewrite <- Hl.
          destruct (N.ltb_spec k_max_agenda_size (N.of_nat (length a1))); [lia|reflexivity].
      + left. exists Panic. split; [|reflexivity]. eapply step_panic; eauto.
  Qed.
  Lemma loop_runs l n fuel : keeps l -> forall data bag found r, Permutation bag data -> (Q -> fine data) -> nbest_loop A fuel l n data found = r -> r <> Diverge ->
    search_runs l n (Running bag found) r.
  Proof.
    intros HK. induction fuel as [|fuel IH]; intros data bag found r HB Hh E Hr; [simpl in E; congruence|].
    destruct (loop_step n found HK HB Hh) as [(r' & Hs & E')|(bag' & data' & found' & Hs & HB' & Hh' & E')]; rewrite E' in E.
    - subst r'. econstructor; [exact Hs|constructor].
    - econstructor; [exact Hs|]. eapply IH; eauto.
  Qed.
  (** The loop ends when the search does. *)
  Lemma loop_ends l n st : keeps l -> Acc (fun st2 st1 => search_step l n st1 st2) st -> forall bag found data, st = Running bag found -> Permutation bag data -> (Q -> fine data) ->
    exists enough r, forall fuel, enough <= fuel -> nbest_loop A fuel l n data found = r /\ r <> Diverge.
  Proof.
    intros HK. induction 1 as [st _ IH]. intros bag found data -> HB Hh.
    destruct (loop_step n found HK HB Hh) as [(r' & Hs & E')|(bag' & data' & found' & Hs & HB' & Hh' & E')].
    - exists 1, r'. intros [|fuel] Hf; [lia|]. split; [apply E'|]. inversion Hs; discriminate.
    - destruct (IH _ Hs bag' found' data' eq_refl HB' Hh') as (enough & r & H). exists (Datatypes.S enough), r. intros [|fuel] Hf; [lia|]. rewrite E'. apply H. lia.
  Qed.
  Lemma push_first h : heap_push less [] h = Ok [h].
  Proof. reflexivity. Qed.
  Lemma heap_one (h : hypothesis) : heap less [h].
  Proof. intros [|i] Hi p x _ Ex; [lia|]. destruct i; discriminate. Qed.
  Lemma viterbi_or l : (exists x, viterbi A l = Ok x) \/ viterbi A l = Panic \/ viterbi A l = Diverge \/ exists e, viterbi A l = Err e.
  Proof. destruct (viterbi A l); eauto 6. Qed.
  Lemma nbest_searched l l' path n r : viterbi A l = Ok (l', path) -> keeps l' -> (Q -> forall h, first_hypothesis l = Ok h -> P h) -> nbest_result A l n r -> r <> Diverge -> searched l n r.
  Proof.
    intros Hv HK HPf [enough H] Hr. specialize (H enough (le_n _)). destruct n as [|[|n]]; unfold nbest in H.
    - subst r. constructor.
    - subst r. constructor.
    - remember (Datatypes.S (Datatypes.S n)) as N eqn:EN. assert (HN : 2 <= N) by lia. clear EN.
      destruct (first_hypothesis l) as [h|e| |] eqn:Eh; cbn [bind] in H.
      + rewrite push_first in H. cbn [bind] in H. rewrite Hv in H. cbn [bind] in H. rewrite <- H. eapply nbest_search; eauto. eapply loop_runs; eauto.
        * intros q. split; [apply heap_one|constructor; [auto|constructor]].
        * intros E. rewrite E in H. cbn [bind] in H. congruence.
      + unfold first_hypothesis, index in Eh. destruct (nth_error (l_nodes l) 1); discriminate.
      + subst r. apply nbest_fail; auto.
      + unfold first_hypothesis, index in Eh. destruct (nth_error (l_nodes l) 1); discriminate.
  Qed.
  Lemma nbest_fun l n r r' : nbest_result A l n r -> nbest_result A l n r' -> r = r'.
  Proof. intros [e1 H1] [e2 H2]. rewrite <- (H1 (Nat.max e1 e2)) by lia. apply H2. lia. Qed.
  Lemma nbest_ends l l' path n : viterbi A l = Ok (l', path) -> keeps l' -> (Q -> forall h, first_hypothesis l = Ok h -> P h) -> 2 <= n ->
    (forall h, first_hypothesis l = Ok h -> Acc (fun st2 st1 => search_step l' n st1 st2) (Running [h] [])) ->
    exists r, nbest_result A l n r /\ r <> Diverge.
  Proof.
    intros Hv HK HPf Hn HA. destruct n as [|[|n]]; [lia|lia|]. unfold nbest_result, nbest. remember (Datatypes.S (Datatypes.S n)) as N eqn:EN.
    destruct (first_hypothesis l) as [h|e| |] eqn:Eh; cbn [bind].
    - rewrite push_first. cbn [bind]. rewrite Hv. cbn [bind]. destruct (@loop_ends l' N _ HK (HA h eq_refl) [h] [] [h] eq_refl (Permutation_refl _)) as (enough & r & H); [intros q; split; [apply heap_one|constructor; [auto|constructor]]|].
      assert (HC : forall nodes found, collect_paths (S := S) nodes found <> Diverge).
      { assert (HC : forall (nodes : list (node S)) ids, collect_nodes nodes ids <> Diverge).
        { intros nodes ids. induction ids as [|i ids IH]; [discriminate|]. cbn [collect_nodes]. unfold index. destruct (nth_error nodes i); [|discriminate]. cbn [bind]. destruct (collect_nodes nodes ids); cbn [bind]; congruence. }
        intros nodes found. induction found as [|f found IH]; [discriminate|]. cbn [collect_paths]. specialize (HC nodes f). destruct (collect_nodes nodes f); cbn [bind]; try congruence.
        destruct (collect_paths nodes found); cbn [bind]; congruence. }
      exists (found <- r ;; paths <- collect_paths (l_nodes l') found ;; Ok (l', paths)). split.
      + exists enough. intros fuel Hf. now destruct (H fuel Hf) as [-> _].
      + destruct (H enough (le_n _)) as [_ Hr]. destruct r; cbn [bind]; try congruence. specialize (HC (l_nodes l') a). destruct (collect_paths (l_nodes l') a); cbn [bind]; congruence.
    - unfold first_hypothesis, index in Eh. destruct (nth_error (l_nodes l) 1); discriminate.
    - exists Panic. split; [exists 0; reflexivity|discriminate].
    - unfold first_hypothesis, index in Eh. destruct (nth_error (l_nodes l) 1); discriminate.
  Qed.
End Search.
Arguments Running {S}.
Arguments Stopped {S}.
