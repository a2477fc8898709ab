(** Properties C37-C40: lattices, their population with tokens, the Viterbi search.  (C41: PropNbest.v; C42-C44:
    PropMarginal.v.) *)
From Coq Require Import Permutation.
From Verif Require Import Base F64 Trie Model BaseProofs SpecModel F64Proofs ModelProofs EncodeProofs Lattice SpecLattice LatticeProofs PopulateProofs.
Set Implicit Arguments.

(** ** C37: a used lattice and pool give the lattice a new one gives; the pool stays usable. *)
Theorem C37_from_forgets : forall (S : Type) (A : arith S) l0 s p, Pool p ->
  exists l p1 p2, lattice_from A l0 s p = Ok (l, p1) /\ lattice_from A (lattice_new) s [] = Ok (l, p2) /\ Pool p1 /\
    l_sentence l = s /\ map span_of (l_nodes l) = [Span 0 bos_id 0 (a_zero A); Span (length s) eos_id 0 (a_zero A)].
Proof.
  intros S A l0 s p Hp. unfold lattice_from.
  assert (H1 := Pool_puts (l_end l0) (Pool_puts (l_begin l0) Hp)).
  destruct (Pool_take (length s + 1) H1) as (p1 & -> & H2). destruct (Pool_take (length s + 1) H2) as (p2 & -> & H3).
  destruct (Pool_take (length s + 1) Pool_default) as (q1 & Hq1 & H4). destruct (Pool_take (length s + 1) H4) as (q2 & Hq2 & H5).
  simpl l_begin. simpl l_end. cbn [fold_left]. rewrite Hq1, Hq2.
  assert (H0 : forall i, i <= length s -> nth_error (repeat (@nil nat) (length s + 1)) i = Some []).
  { intros i Hi. rewrite nth_error_repeat by lia. reflexivity. }
  destruct (nth_error_push_at _ 0 0 (H0 0 (Nat.le_0_l _))) as (es & -> & _).
  destruct (nth_error_push_at _ (length s) 1 (H0 _ (Nat.le_refl _))) as (bs & -> & _). cbn [bind].
  eexists _, p2, q2. splits; try reflexivity. exact H3.
Qed.
Print Assumptions C37_from_forgets.
(** What a lattice holds depends only on the sentence and on the spans inserted since the last call of [from]. *)
Theorem C37_history_free : forall (S : Type) (A : arith S) s E l l', Lat A s E l -> Lat A s E l' -> non_empty E ->
  l_sentence l = l_sentence l' /\ l_begin l = l_begin l' /\ l_end l = l_end l' /\ map span_of (l_nodes l) = map span_of (l_nodes l').
Proof.
  intros S A s E l l' H H' Hne. apply Lat_inv in H; auto. apply Lat_inv in H'; auto.
  assert (HX : forall xs ys : list (list nat), length xs = length s + 1 -> length ys = length s + 1 ->
    (forall p, p <= length s -> nth_error xs p = nth_error ys p) -> xs = ys).
  { intros xs ys Hx Hy Hn. apply nth_ext with [] []; [congruence|]. intros i Hi. assert (Hi' : i <= length s) by lia. specialize (Hn i Hi').
    destruct (nth_error_lt xs Hi) as (v & Hv). rewrite (nth_error_nth _ _ _ Hv). rewrite Hv in Hn. now rewrite (nth_error_nth _ _ _ (eq_sym Hn)). }
  splits.
  - now rewrite (i_sentence H), (i_sentence H').
  - apply HX; [apply H|apply H'|]. intros p Hp. now rewrite (i_begin H Hp), (i_begin H' Hp).
  - apply HX; [apply H|apply H'|]. intros p Hp. now rewrite (i_end H Hp), (i_end H' Hp).
  - now rewrite (proj1 (i_nodes H)), (proj1 (i_nodes H')).
Qed.
Print Assumptions C37_history_free.
(** ... and each begin and end position lists exactly the nodes of the spans there. *)
Theorem C37_linked : forall (S : Type) (A : arith S) s E l, Lat A s E l -> non_empty E -> forall k e, nth_error E k = Some e ->
  (exists n, nth_error (l_nodes l) (2 + k) = Some n /\ span_of n = e) /\
  (forall p, p <= length s -> exists starting ending, nth_error (l_begin l) p = Some starting /\ nth_error (l_end l) p = Some ending /\
     (In (2 + k) starting <-> p = s_pos e) /\ (In (2 + k) ending <-> p = s_end e)).
Proof.
  intros S A s E l HL Hne k e Hk. assert (I := Lat_inv HL Hne). split.
  - apply nodes_at with (G := all_spans A (length s) E); [apply (i_nodes I)|exact Hk].
  - intros p Hp. eexists _, _. split; [apply (i_begin I Hp)|]. split; [apply (i_end I Hp)|]. rewrite begins_spec, ends_spec. split; split.
    + intros (_ & e' & He' & Hp'). change (nth_error E k = Some e') in He'. congruence.
    + intros ->. split; [lia|]. exists e. auto.
    + intros (_ & e' & He' & Hp'). change (nth_error E k = Some e') in He'. congruence.
    + intros ->. split; [lia|]. exists e. auto.
Qed.
Print Assumptions C37_linked.

(** ** C38 *)
Theorem C38_no_dropout : forall (S : Type) (A : arith S) conv vocab rnd dropout s l k, fits vocab -> fltb f0 dropout = false -> Lat A s [] l ->
  exists l' E, populate_nodes A conv (model_from vocab) rnd dropout l k = Ok (l', k) /\ Lat A s E l' /\
    NoDup (map (fun e => (s_pos e, s_id e)) E) /\ forall e, In e E <-> Occurs conv vocab s e.
Proof.
  intros S A conv vocab rnd dropout s l k Hf Hd HL.
  destruct (populate_spec conv Hf rnd dropout k HL) as (l' & k' & E & HE & HL' & Hne & HT & _).
  assert (Ek : k' = k).
  { clear - HE Hd. unfold populate_nodes in HE. revert HE. generalize (l_sentence l) at 1, 0. intros suf. revert l k.
    assert (HM : forall pos matches l k l' k', populate_matches A conv (m_vocab (model_from vocab)) rnd dropout pos matches l k = Ok (l', k') -> k' = k).
    { intros pos. induction matches as [|[id len] ms IH]; intros l k l2 k2 H; simpl in H; [congruence|].
      apply bind_Ok in H as (t & _ & H). rewrite Hd, !andb_false_r in H. cbn [andb] in H. apply bind_Ok in H as (l3 & _ & H). eauto. }
    induction suf as [|b suf IH]; intros l k pos H; simpl in H; [congruence|]. apply bind_Ok in H as ([l2 k2] & H1 & H). apply HM in H1. subst k2. eauto. }
  subst k'. exists l', E. split; [exact HE|]. split; [exact HL'|].
  assert (HI : forall e, In e E <-> Occurs conv vocab s e).
  { intros e. rewrite <- (all_occurrences_In conv Hf). split; [now apply Thin_In with (1 := HT)|]. intros Hin. eapply Thin_keeps; eauto. intros (_ & H & _). congruence. }
  split; [|exact HI]. apply NoDup_map_inj.
  - eapply Thin_NoDup; [exact HT|]. now apply all_occurrences_NoDup.
  - intros x y Hx Hy Exy. apply HI in Hx, Hy. injection Exy as E1 E2. eapply Occurs_unique; eauto.
Qed.
Print Assumptions C38_no_dropout.
Theorem C38_dropout : forall (S : Type) (A : arith S) conv vocab rnd dropout s l k, fits vocab -> Lat A s [] l ->
  exists l' k' E, populate_nodes A conv (model_from vocab) rnd dropout l k = Ok (l', k') /\ Lat A s E l' /\
    NoDup (map (fun e => (s_pos e, s_id e)) E) /\ (forall e, In e E -> Occurs conv vocab s e) /\
    (forall e, Occurs conv vocab s e -> s_len e = 1 -> In e E) /\
    (fltb f0 dropout = true -> (forall k, fltb (rnd k) dropout = true) -> forall e, In e E -> s_len e = 1).
Proof.
  intros S A conv vocab rnd dropout s l k Hf HL.
  destruct (populate_spec conv Hf rnd dropout k HL) as (l' & k' & E & HE & HL' & Hne & HT & HD). exists l', k', E.
  assert (HI : forall e, In e E -> Occurs conv vocab s e).
  { intros e He. apply (all_occurrences_In conv Hf). now apply Thin_In with (1 := HT). }
  splits; auto.
  - apply NoDup_map_inj.
    + eapply Thin_NoDup; [exact HT|]. now apply all_occurrences_NoDup.
    + intros x y Hx Hy Exy. apply HI in Hx, Hy. injection Exy as E1 E2. eapply Occurs_unique; eauto.
  - intros e He H1. eapply Thin_keeps; [exact HT|now apply (all_occurrences_In conv Hf)|]. intros (H2 & _). lia.
Qed.
Print Assumptions C38_dropout.

(** ** C39 *)
Theorem C39_viterbi_best : forall e l s E lat, Lat (f64_arith e l) s E lat -> non_empty E -> (forall x, In x E -> f_is_finite (s_score x) = true) ->
  starts_reachable E (length s) ->
  exists lat' ns n ks, viterbi (f64_arith e l) lat = Ok (lat', ns ++ [n]) /\ Path E 0 (length s) ks /\ map span_of ns = spans_of E ks /\
    span_of n = Span (length s) eos_id 0 f0 /\ feqb (n_back n) (acc (f64_arith e l) E ks) = true /\
    forall ks', Path E 0 (length s) ks' -> fleb (acc (f64_arith e l) E ks') (acc (f64_arith e l) E ks) = true.
Proof. exact viterbi_best. Qed.
Print Assumptions C39_viterbi_best.
(** It gives up exactly when some span begins where none ends. *)
Theorem C39_viterbi_gives_up : forall (S : Type) (A : arith S) s E lat, Lat A s E lat -> non_empty E ->
  (exists lat', viterbi A lat = Ok (lat', [])) <-> ~ starts_reachable E (length s).
Proof.
  intros S A s E lat HL Hne. destruct (viterbi_spec (Lat_inv HL Hne) Hne) as (l' & r & Hv & _ & [(HR & _ & ks & ns & n & _ & _ & _ & -> & _)|(HN & ->)]).
  - split; [|tauto]. intros (lat' & H). rewrite H in Hv. injection Hv as _ Hv. destruct ns; discriminate.
  - split; [tauto|]. intros _. eauto.
Qed.
Print Assumptions C39_viterbi_gives_up.

(** ** C40 *)
Lemma covers_singles : forall (S : Type) (conv : f64 -> S) vocab s E, covers vocab s -> (forall e, Occurs conv vocab s e -> s_len e = 1 -> In e E) ->
  forall p, p < length s -> exists e, In e E /\ s_pos e = p /\ s_end e = p + 1.
Proof.
  intros S conv vocab s E Hc HE p Hp. destruct (nth_error_lt _ Hp) as (b & Hb). unfold covers in Hc. rewrite Forall_forall in Hc.
  destruct (Hc b (nth_error_In _ _ Hb)) as (t & Ht & Hv). destruct (latest_exists _ _ Ht) as (id & t' & Hl & Hv'). rewrite Hv in Hv'.
  apply nth_error_split in Hb as (s1 & s2 & -> & Hl1).
  exists (Span p id 1 (conv (st_score t'))). split; [|split; [reflexivity|unfold s_end; simpl; lia]]. apply HE; [|reflexivity].
  exists t', s1, s2. rewrite Hv'. splits; auto. discriminate.
Qed.
Lemma covers_reachable : forall (S : Type) (conv : f64 -> S) vocab s E, covers vocab s -> (forall e, Occurs conv vocab s e -> s_len e = 1 -> In e E) ->
  (forall e, In e E -> Occurs conv vocab s e) -> starts_reachable E (length s) /\ ends_continued E (length s).
Proof.
  intros S conv vocab s E Hc H1 HE. assert (HS := covers_singles _ Hc H1).
  assert (Hend : forall p, p <= length s -> p = 0 \/ exists e', In e' E /\ s_end e' = p).
  { intros [|p] Hp; [now left|right]. destruct (HS p) as (e & He & _ & Hx); [lia|]. exists e. split; [exact He|lia]. }
  assert (Hstart : forall p, p <= length s -> p = length s \/ exists e', In e' E /\ s_pos e' = p).
  { intros p Hp. destruct (Nat.eq_dec p (length s)); [now left|right]. destruct (HS p) as (e & He & Hx & _); [lia|]. eauto. }
  split; split.
  - intros e He. apply Hend. destruct (Occurs_inside (HE e He)). unfold s_end in *. lia.
  - now apply Hend.
  - intros e He. apply Hstart. now destruct (Occurs_inside (HE e He)).
  - destruct (Hstart 0) as [H0|H0]; [lia|left; lia|now right].
Qed.
Theorem C40_viterbi_encode : forall e l vocab rnd rnd' dropout dropout' s lat k, fits vocab -> finite_scores vocab -> covers vocab s ->
  fltb f0 dropout = false -> fleb dropout' f0 = true -> Lat (f64_arith e l) s [] lat ->
  exists lat' lat'' ns n ids, populate_nodes (f64_arith e l) (fun x => x) (model_from vocab) rnd dropout lat k = Ok (lat', k) /\
    viterbi (f64_arith e l) lat' = Ok (lat'', ns ++ [n]) /\ encode (model_from vocab) rnd' s dropout' = Ok ids /\
    Spells vocab (map (fun n => n_token_id n) ns) s /\
    feqb (score_of vocab (map (fun n => n_token_id n) ns)) (score_of vocab ids) = true.
Proof.
  intros e l vocab rnd rnd' dropout dropout' s lat k Hf Hfin Hc Hd Hd' HL.
  destruct (C38_no_dropout (fun x => x) rnd dropout k Hf Hd HL) as (lat' & E & HP & HL' & _ & HE).
  assert (Hne : non_empty E). { apply Forall_forall. intros x Hx. apply HE in Hx. now apply Occurs_inside in Hx. }
  destruct (covers_reachable E Hc (fun x Hx _ => proj2 (HE x) Hx) (fun x Hx => proj1 (HE x) Hx)) as [HR _].
  destruct (viterbi_best HL' Hne) as (lat'' & ns & n & ks & Hv & HPath & Hsp & _ & _ & Hmax); [|exact HR|].
  { intros x Hx. apply HE in Hx as (t & _ & _ & [Ht _] & _ & _ & _ & _ & ->). unfold finite_scores in Hfin. rewrite Forall_forall in Hfin. apply Hfin. eapply token_at_In; eauto. }
  destruct (encode_covered Hf rnd' dropout' Hc) as (ids & Hids).
  assert (Eid : map (fun n => n_token_id n) ns = ids_of E ks).
  { unfold ids_of. rewrite <- Hsp, map_map. reflexivity. }
  assert (HC : Cut vocab (map (fun n => n_token_id n) ns) s).
  { rewrite Eid. exact (Path_Cut (fun x Hx => proj1 (HE x) Hx) HPath (Nat.le_0_l _)). }
  exists lat', lat'', ns, n, ids. splits; auto; [now apply Cut_Spells|].
  apply fleb_feqb.
  - eapply encode_optimal; eauto.
  - rewrite Eid. destruct (@Cut_Path _ (fun x => x) vocab s E (fun x Hx => proj2 (HE x) Hx) ids 0) as (ks' & HP' & Hids'); [simpl; eapply encode_sound; eauto|lia|].
    rewrite <- Hids', <- !(@acc_score_of e l vocab s E (fun x Hx => proj1 (HE x) Hx)). now apply Hmax.
Qed.
Print Assumptions C40_viterbi_encode.

(** ** Examples *)
(** "ab" as one token and "b": the path made of the first one is not found. *)
Definition exl_arith : arith f64 := f64_arith (fun x => x) (fun x => x).
Definition exl_spans : list (span f64) := [Span 0 0%N 2 f1; Span 1 1%N 1 f1].
Example C39_gives_up : exists l, Lat exl_arith [x61; x62] exl_spans l /\ Path exl_spans 0 2 [0] /\
  exists l', viterbi exl_arith l = Ok (l', []).
Proof.
  destruct (Lat_exists exl_arith [x61; x62] (E := exl_spans)) as (l & HL); [repeat constructor|repeat constructor|]. exists l.
  split; [exact HL|]. split; [apply (@Path_cons _ exl_spans 0 (Span 0 0%N 2 f1)); [reflexivity|constructor]|].
  apply (C39_viterbi_gives_up HL ltac:(repeat constructor)). intros [H _]. destruct (H (Span 1 1%N 1 f1)) as [H1|(e & [<-|[<-|[]]] & H1)]; [simpl; auto|discriminate|discriminate|discriminate].
Qed.
Definition exl_vocab : list scored_token := [ST [x61] (f64_of_Z (-1)) false; ST [x62] (f64_of_Z (-2)) false; ST [x61; x62] (f64_of_Z (-4)) false].
Example C40_example : fits exl_vocab /\ finite_scores exl_vocab /\ covers exl_vocab [x61; x62] /\
  exists l p, lattice_from exl_arith lattice_new [x61; x62] [] = Ok (l, p) /\ Lat exl_arith [x61; x62] [] l.
Proof.
  splits.
  - split; [reflexivity|repeat constructor].
  - repeat constructor.
  - repeat constructor; [exists (ST [x61] (f64_of_Z (-1)) false)|exists (ST [x62] (f64_of_Z (-2)) false)]; simpl; auto.
  - destruct (from_spec exl_arith lattice_new [x61; x62] Pool_default) as (l & p & H & _). exists l, p. split; [exact H|]. eapply Lat_from; [constructor|exact H].
Qed.
