(** Property C41: the search for the best paths. *)
From Coq Require Import Reals Lra Permutation Sorted.
From Verif Require Import Base F64 Trie Model BaseProofs F64Proofs Lattice SpecLattice LatticeProofs PopulateProofs HeapProofs NbestSearch NbestProofs NbestAll RealArith NbestExact.
Set Implicit Arguments.
Local Open Scope nat_scope.

Lemma R_ordered hs : Ordered (hyp_less R_arith) hs.
Proof. split; unfold hyp_less; simpl; intros *; intros; rewrite ?Rltb_false, ?Rltb_true in *; lra. Qed.
Section Ends.
  Context {S : Type} (A : arith S).
  Variables (s : bytes) (E : list (span S)) (l : lattice S) (n : nat).
  Hypothesis HL : Lat A s E l.
  Hypothesis Hne : non_empty E.
  Hypothesis Hid : Forall (fun e => (s_id e < bos_id)%N) E.
  Hypothesis Hn : 2 <= n.
  Lemma nbest_stops : exists r, nbest_result A l n r /\ r <> Diverge.
  Proof.
    destruct (viterbi_spec (Lat_inv HL Hne) Hne) as (l1 & r1 & Hv & I1 & _).
    apply (@nbest_ends _ A False (fun _ => True) (fun f => match f with end) l l1 r1 n Hv (fun f => match f with end) (fun f => match f with end) Hn).
    intros h Hh. apply (search_terminates I1 Hne Hid). eapply ok_first; eauto. lia.
  Qed.
  Lemma nbest_by_search_keeping (Q : Prop) (P : @hypothesis S -> Prop) r : (Q -> forall hs, Forall P hs -> Ordered (hyp_less A) hs) ->
    (forall l' path, viterbi A l = Ok (l', path) -> keeps A Q P l') -> (Q -> forall h, first_hypothesis l = Ok h -> P h) -> nbest_result A l n r -> searched A Q l n r.
  Proof.
    intros HQ HK HF Hr. destruct nbest_stops as (r' & Hr' & Hd). assert (r = r') by (eapply nbest_fun; eauto). subst r'.
    destruct (viterbi_spec (Lat_inv HL Hne) Hne) as (l1 & r1 & Hv & _). eapply nbest_searched; eauto.
  Qed.
  Lemma nbest_by_search (Q : Prop) r : (Q -> forall hs, Ordered (hyp_less A) hs) -> nbest_result A l n r -> searched A Q l n r.
  Proof. intros HQ. apply (@nbest_by_search_keeping Q (fun _ => True)); auto. intros l1 path _ q top hs _ _. apply Forall_forall. auto. Qed.
End Ends.

(** ** C41: whatever the search returns are at most [n] different complete paths; it does not fail.
    (A token id may not be the one of the begin node, 2^32 - 2.) *)
Theorem C41_complete_distinct : forall (S : Type) (A : arith S) s E l n r, Lat A s E l -> non_empty E -> Forall (fun e => (s_id e < bos_id)%N) E -> 2 <= n ->
  nbest_result A l n r ->
  exists l' paths kss, r = Ok (l', paths) /\ Lat A s E l' /\ map (map span_of) paths = map (spans_of E) kss /\
    Forall (fun ks => Path E 0 (length s) ks) kss /\ NoDup kss /\ length kss <= n.
Proof.
  intros S A s E l n r HL Hne Hid Hn Hr. assert (I := Lat_inv HL Hne). destruct (viterbi_spec I Hne) as (l1 & r1 & Hv & I1 & _).
  destruct (nodes_at _ _ (proj1 (i_nodes I)) (eq_refl : nth_error (all_spans A (length s) E) 1 = Some (eos_span A (length s)))) as (eos & He & _).
  assert (Hf : first_hypothesis l = Ok (Hyp 1 [] (n_score eos) (n_score eos))) by (unfold first_hypothesis; now rewrite (index_Some _ _ He)).
  apply (nbest_by_search HL Hne Hid Hn (Q := False)) in Hr; [|intros []]. inversion Hr as [| |n0 _ H|n0 h _ _ H|n0 h l2 path r2 _ H1 H2 H3]; subst; try lia.
  - destruct H as [H|H]; congruence.
  - congruence.
  - rewrite Hv in H2. injection H2 as <- <-.
    assert (Hok : ok_search A s E n (Running [h] [])) by (eapply ok_first; [lia|exact H1]).
    destruct (ok_runs I1 Hne Hid Hok H3) as (found & -> & HC & HN & Hlen). destruct (complete_paths HC) as (kss & -> & HP).
    destruct (collect_spec I1 HP) as (paths & Hc & Hs). cbn [bind]. rewrite Hc. cbn [bind]. exists l1, paths, kss. splits; auto.
    + eapply Lat_viterbi; eauto.
    + now apply NoDup_map_inv in HN.
    + now rewrite map_length in Hlen.
Qed.
Print Assumptions C41_complete_distinct.

(** There is an answer, in any arithmetic and whatever the scores are. *)
Theorem C41_terminates : forall (S : Type) (A : arith S) s E l n, Lat A s E l -> non_empty E -> Forall (fun e => (s_id e < bos_id)%N) E ->
  exists enough l' paths, forall fuel, enough <= fuel -> nbest A fuel l n = Ok (l', paths).
Proof.
  intros S A s E l n HL Hne Hid. assert (I := Lat_inv HL Hne). destruct (viterbi_spec I Hne) as (l1 & r1 & Hv & I1 & _).
  destruct n as [|[|n]]; [exists 0, l, []; reflexivity|exists 0, l1, [r1]; intros fuel _; unfold nbest; now rewrite Hv|].
  destruct (@nbest_stops _ A s E l (Datatypes.S (Datatypes.S n)) HL Hne Hid ltac:(lia)) as (r & Hr & _).
  destruct (@C41_complete_distinct _ A s E l (Datatypes.S (Datatypes.S n)) r HL Hne Hid ltac:(lia) Hr) as (l' & paths & _ & -> & _). destruct Hr as [enough H]. eauto.
Qed.
Print Assumptions C41_terminates.
Theorem C41_returns : forall e ln s E l n, Lat (f64_arith e ln) s E l -> non_empty E -> Forall (fun e => (s_id e < bos_id)%N) E ->
  exists l' paths, nbest_result (f64_arith e ln) l n (Ok (l', paths)).
Proof. intros e ln s E l n HL Hne Hid. destruct (C41_terminates n HL Hne Hid) as (enough & l' & paths & H). exists l', paths. now exists enough. Qed.
Print Assumptions C41_returns.

(** In exact arithmetic they are the best ones, best first.  [n <= 512]: the agenda may be cut, but without effect. *)
Theorem C41_best_first : forall s E l n l' paths, Lat R_arith s E l -> non_empty E -> Forall (fun e => (s_id e < bos_id)%N) E -> starts_reachable E (length s) ->
  2 <= n -> (n <= 512 \/ forall L, NoDup L -> Forall (fun ks => Path E 0 (length s) ks) L -> (N.of_nat (length L) <= 100000)%N) ->
  nbest_result R_arith l n (Ok (l', paths)) ->
  exists kss, map (map span_of) paths = map (spans_of E) kss /\ Forall (fun ks => Path E 0 (length s) ks) kss /\ NoDup kss /\ length kss <= n /\
    StronglySorted (fun x y => (y <= x)%R) (map (total E) kss) /\
    forall p, Path E 0 (length s) p -> In p kss \/ length kss = n /\ forall ks, In ks kss -> (total E p <= total E ks)%R.
Proof.
  intros s E l n l' paths HL Hne Hid HR Hn Hcut Hr. assert (I := Lat_inv HL Hne). destruct (viterbi_spec I Hne) as (l1 & r1 & Hv & I1 & [(_ & Hsol & _)|(HN & _)]); [|contradiction].
  destruct (nodes_at _ _ (proj1 (i_nodes I)) (eq_refl : nth_error (all_spans R_arith (length s) E) 1 = Some (eos_span R_arith (length s)))) as (eos & He & Hes).
  assert (Hf : first_hypothesis l = Ok (Hyp 1 [] (n_score eos) (n_score eos))) by (unfold first_hypothesis; now rewrite (index_Some _ _ He)).
  apply (nbest_by_search HL Hne Hid Hn (Q := True) (fun _ => R_ordered)) in Hr.
  remember (Ok (l', paths)) as x eqn:Ex. destruct Hr as [| |n H0 H|n h H0 H H1|n h l2 path r2 H0 H1 H2 H3]; try lia; try discriminate.
  rewrite Hv in H2. injection H2 as <- <-. rewrite Hf in H1. injection H1 as <-.
  set (h := Hyp 1 [] (n_score eos) (n_score eos)) in *.
  assert (Hok : ok_search R_arith s E n (Running [h] [])) by (eapply ok_first; [lia|exact Hf]).
  assert (HB : best_search s E l1 n (Running [h] [])).
  { apply best_first; auto; [lia|]. split; [split; reflexivity|]. simpl. change (n_score eos) with (s_score (span_of eos)). now rewrite Hes. }
  destruct (ok_runs I1 Hne Hid Hok H3) as (found & -> & HC & HND & Hlen). destruct (best_runs I1 Hne Hid Hsol Hcut HB H3) as (found' & Ef & HS & HA). injection Ef as <-.
  destruct (complete_paths HC) as (kss & -> & HP). destruct (collect_spec I1 HP) as (paths' & Hc & Hs). cbn [bind] in Ex. rewrite Hc in Ex. cbn [bind] in Ex. injection Ex as <- <-.
  assert (Hval : forall ks, In ks kss -> value s E (idx ks) = total E ks).
  { intros ks Hin. rewrite Forall_forall in HP. eapply value_idx. now apply HP. }
  exists kss. splits; auto.
  - now apply NoDup_map_inv in HND.
  - now rewrite map_length in Hlen.
  - rewrite map_map in HS. erewrite map_ext_in; [exact HS|]. intros ks Hin. symmetry. auto.
  - intros p HPp. destruct (in_dec (list_eq_dec Nat.eq_dec) p kss) as [Hin|Hni]; [now left|right]. rewrite map_length in HA.
    destruct (HA p HPp) as [H1 H2]. { intros Hin. apply in_map_iff in Hin as (q & Hq & Hin). apply idx_inj in Hq. congruence. }
    split; [exact H1|]. intros ks Hin. rewrite <- (Hval ks Hin). apply H2. now apply in_map.
Qed.
Print Assumptions C41_best_first.

(** [nbest(1)] is the result of the Viterbi search, with the end node. *)
Theorem C41_one : forall (S : Type) (A : arith S) s E l l' paths, Lat A s E l -> non_empty E -> nbest_result A l 1 (Ok (l', paths)) ->
  (starts_reachable E (length s) -> exists ks ns n, paths = [ns ++ [n]] /\ Path E 0 (length s) ks /\ map span_of ns = spans_of E ks /\ span_of n = Span (length s) eos_id 0 (a_zero A)) /\
  (~ starts_reachable E (length s) -> paths = [[]]).
Proof.
  intros S A s E l l' paths HL Hne Hr. assert (I := Lat_inv HL Hne). destruct (viterbi_spec I Hne) as (l1 & r1 & Hv & I1 & HV).
  assert (Ep : paths = [r1]).
  { destruct Hr as [enough Hr]. specialize (Hr enough (le_n _)). unfold nbest in Hr. rewrite Hv in Hr. cbn [bind] in Hr. congruence. }
  subst paths. destruct HV as [(HR & _ & ks & ns & n & HP & HF & Hn & -> & _)|(HN & ->)]; (split; [intros HR'|intros HN']); try tauto.
  exists ks, ns, n. splits; auto.
  - exact (nodes_of_path (i_nodes I1) HP HF).
  - assert (H := nodes_at' _ _ (proj1 (i_nodes I1)) Hn). assert (H2 : eos_span A (length s) = span_of n) by (simpl in H; congruence). now rewrite <- H2.
Qed.
Print Assumptions C41_one.

(** In any arithmetic: when fewer paths than asked for are returned, these are all there are (if the lattice is small enough
    for the agenda not to be cut). *)
Theorem C41_all_found : forall (S : Type) (A : arith S) s E l n l' paths, Lat A s E l -> non_empty E -> Forall (fun e => (s_id e < bos_id)%N) E -> 2 <= n ->
  (forall L, NoDup L -> Forall (fun ks => exists p, Path E p (length s) ks) L -> (N.of_nat (length L) <= 50000)%N) ->
  nbest_result A l n (Ok (l', paths)) -> length paths < n ->
  forall ks, Path E 0 (length s) ks -> In (spans_of E ks) (map (map span_of) paths).
Proof.
  intros S A s E l n l' paths HL Hne Hid Hn Hfew Hr Hlt ks HP. assert (I := Lat_inv HL Hne). destruct (viterbi_spec I Hne) as (l1 & r1 & Hv & I1 & _).
  destruct (nodes_at _ _ (proj1 (i_nodes I)) (eq_refl : nth_error (all_spans A (length s) E) 1 = Some (eos_span A (length s)))) as (eos & He & Hes).
  assert (Hf : first_hypothesis l = Ok (Hyp 1 [] (n_score eos) (n_score eos))) by (unfold first_hypothesis; now rewrite (index_Some _ _ He)).
  apply (nbest_by_search HL Hne Hid Hn (Q := False)) in Hr; [|intros []].
  remember (Ok (l', paths)) as x eqn:Ex. destruct Hr as [| |n H0 H|n h H0 H H1|n h l2 path r2 H0 H1 H2 H3]; try lia; try discriminate.
  rewrite Hv in H2. injection H2 as <- <-. rewrite Hf in H1. injection H1 as <-.
  assert (Hok : ok_search A s E n (Running [Hyp 1 [] (n_score eos) (n_score eos)] [])) by (eapply ok_first; [lia|exact Hf]).
  assert (Hall : all_search s E n (Running [Hyp 1 [] (n_score eos) (n_score eos)] [])) by (eapply all_first; exact Hf).
  destruct (ok_runs I1 Hne Hid Hok H3) as (found & -> & Hc & HN & Hle). cbn [bind] in Ex. destruct (complete_paths Hc) as (kss & -> & HF).
  destruct (collect_spec I1 HF) as (paths' & Hcol & Hmap). rewrite Hcol in Ex. cbn [bind] in Ex. injection Ex as -> ->.
  assert (Hlen : length paths = length kss) by (apply (f_equal (@length _)) in Hmap; rewrite !map_length in Hmap; exact Hmap).
  destruct (all_runs I1 Hne Hid Hfew Hok Hall H3 eq_refl) as [Hx|Hx]; [rewrite map_length in Hx; lia|].
  specialize (Hx ks HP). apply in_map_iff in Hx as (ks' & Hi & Hin). apply idx_inj in Hi. subst ks'. rewrite Hmap. now apply in_map.
Qed.
Print Assumptions C41_all_found.

(** ** Examples *)
(** "ab" cut into "ab" or "a", "b", and a token id that is taken for the begin node. *)
Definition exn_spans : list (span R) := [Span 0 0%N 1 (-1)%R; Span 1 1%N 1 (-2)%R; Span 0 2%N 2 (-4)%R].
Lemma exn_paths ks : Path exn_spans 0 2 ks <-> ks = [0; 1] \/ ks = [2].
Proof.
  revert ks. assert (HI : forall p q k ks, Path exn_spans p q (k :: ks) -> exists e, nth_error exn_spans k = Some e /\ s_pos e = p /\ Path exn_spans (s_end e) q ks).
  { intros p q k ks H. inversion H; subst; eauto. }
  assert (HF : forall p k e, nth_error exn_spans k = Some e -> s_pos e = p -> p = 0 /\ (k = 0 /\ s_end e = 1 \/ k = 2 /\ s_end e = 2) \/ p = 1 /\ k = 1 /\ s_end e = 2).
  { intros p [|[|[|k]]] e He <-; simpl in He; try (injection He as <-); simpl; auto. destruct k; discriminate. }
  assert (HX : forall ks, Path exn_spans 2 2 ks -> ks = []).
  { intros [|k ks] H; [reflexivity|]. apply HI in H as (e & H1 & H2 & _). destruct (HF _ _ _ H1 H2) as [[H _]|[H _]]; discriminate. }
  intros ks. split.
  - intros H. destruct ks as [|k ks]; [inversion H|]. apply HI in H as (e & H1 & H2 & H3). destruct (HF _ _ _ H1 H2) as [(_ & [(-> & E1)|(-> & E1)])|(H & _)]; [| |discriminate].
    + rewrite E1 in H3. left. destruct ks as [|k ks]; [inversion H3|]. apply HI in H3 as (e' & H3 & H4 & H5). destruct (HF _ _ _ H3 H4) as [(H & _)|(_ & -> & E2)]; [discriminate|].
      rewrite E2 in H5. now rewrite (HX _ H5).
    + rewrite E1 in H3. right. now rewrite (HX _ H3).
  - intros [->| ->].
    + apply (@Path_cons _ exn_spans 0 (Span 0 0%N 1 (-1)%R) [1] 2 eq_refl). apply (@Path_cons _ exn_spans 1 (Span 1 1%N 1 (-2)%R) [] 2 eq_refl). constructor.
    + apply (@Path_cons _ exn_spans 2 (Span 0 2%N 2 (-4)%R) [] 2 eq_refl). constructor.
Qed.
Example C41_example : exists l l' paths, Lat R_arith [x61; x62] exn_spans l /\ non_empty exn_spans /\ Forall (fun e => (s_id e < bos_id)%N) exn_spans /\
  starts_reachable exn_spans 2 /\ nbest_result R_arith l 2 (Ok (l', paths)) /\ map (map (fun n => n_token_id n)) paths = [[0%N; 1%N]; [2%N]].
Proof.
  assert (Hne : non_empty exn_spans) by repeat constructor. assert (Hid : Forall (fun e => (s_id e < bos_id)%N) exn_spans) by repeat constructor.
  assert (HR : starts_reachable exn_spans 2).
  { split; [|right; exists (Span 1 1%N 1 (-2)%R); split; [right; now left|reflexivity]]. intros e [<-|[<-|[<-|[]]]]; simpl; auto. right. exists (Span 0 0%N 1 (-1)%R). simpl. auto. }
  destruct (Lat_exists R_arith [x61; x62] Hne) as (l & HL); [repeat constructor|].
  destruct (C41_terminates 2 HL Hne Hid) as (enough & l' & paths & Hr0). assert (Hr : nbest_result R_arith l 2 (Ok (l', paths))) by now exists enough. exists l, l', paths. splits; auto.
  assert (H512 : 2 <= 512) by lia. destruct (C41_best_first HL Hne Hid HR (Nat.le_refl 2) (or_introl H512) Hr) as (kss & Hp & HP & HN & Hlen & HS & HA).
  assert (H12 := exn_paths).
  assert (Hin : forall p, p = [0; 1] \/ p = [2] -> In p kss).
  { intros p Hp0. destruct (HA p) as [H|(H & _)]; [now apply H12|exact H|]. destruct kss as [|a [|b [|c kss]]]; try discriminate.
    inversion HP as [|? ? Ha HP1]; subst. inversion HP1 as [|? ? Hb _]; subst. apply H12 in Ha, Hb. inversion HN as [|? ? Hni _]; subst. simpl in *. 
    destruct Hp0 as [->| ->], Ha as [->| ->], Hb as [->| ->]; auto; exfalso; apply Hni; auto. }
  assert (Ek : kss = [[0; 1]; [2]]).
  { assert (H1 := Hin _ (or_introl eq_refl)). assert (H2 := Hin _ (or_intror eq_refl)). destruct kss as [|a [|b [|c kss]]]; [destruct H1| | |simpl in Hlen; lia].
    - destruct H1 as [->|[]]. destruct H2 as [H2|[]]. discriminate.
    - destruct H1 as [->|[->|[]]], H2 as [H2|[H2|[]]]; try discriminate; [now subst|]. subst a. exfalso. simpl in HS. inversion HS as [|? ? _ HF]; subst. inversion HF as [|? ? Hlt _]; subst.
      unfold total in Hlt. simpl in Hlt. lra. }
  subst kss. apply (f_equal (map (map (fun e => s_id e)))) in Hp. rewrite !map_map in Hp. rewrite (map_ext _ (map (fun n => n_token_id n))) in Hp; [exact Hp|]. intros x. now rewrite map_map.
Qed.
