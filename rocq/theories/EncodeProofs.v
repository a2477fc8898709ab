(** The properties of [Model::encode], [token_to_id], [common_prefix_search], [decode]. *)
From Coq Require Import Sorted.
From Verif Require Import Base BaseProofs F64 F64Proofs Utf8 Trie TrieProofs Model SpecModel DpProofs ModelProofs.
Set Implicit Arguments.

(** ** Facts about the specification *)

Lemma latest_unique vocab id t id' t' :
  latest vocab id t -> latest vocab id' t' -> st_value t = st_value t' -> id = id' /\ t = t'.
Proof.
  intros [H1 H2] [H1' H2'] Hv. assert (id = id').
  { destruct (N.lt_trichotomy id id') as [Hlt|[->|Hgt]]; [|reflexivity|].
    - exfalso. apply (H2 id' t' Hlt H1'). congruence.
    - exfalso. apply (H2' id t Hgt H1). congruence. }
  subst. split; [reflexivity|]. unfold token_at in *. congruence.
Qed.

Lemma latest_exists vocab t : In t vocab -> exists id t', latest vocab id t' /\ st_value t' = st_value t.
Proof.
  intros Hin. apply In_nth_error in Hin as (i & Hi).
  destruct (last_from 0 vocab (st_value t)) as [j|] eqn:E.
  - apply last_from_latest in E as (t' & H). exists (N.of_nat j), t'. exact H.
  - assert (H := last_from_spec vocab (st_value t) 0). rewrite E in H. exfalso. exact (H i t Hi eq_refl).
Qed.

Lemma token_at_In vocab id t : token_at vocab id t -> In t vocab.
Proof. apply nth_error_In. Qed.

Lemma Spells_Cut vocab ids s : Spells vocab ids s -> exists ids', Cut vocab ids' s.
Proof.
  induction 1 as [|id t ids s Ht HS [ids' IH]].
  - exists []. constructor.
  - destruct (st_value t) as [|b v] eqn:Ev; [now exists ids'|].
    destruct (latest_exists _ _ (token_at_In Ht)) as (id' & t' & Hl & Hv).
    exists (id' :: ids'). rewrite <- Ev, <- Hv. constructor; auto. rewrite Hv, Ev. discriminate.
Qed.


Lemma distinct_latest vocab id t : distinct_values vocab -> token_at vocab id t -> latest vocab id t.
Proof.
  intros Hd Ht. split; [exact Ht|]. intros id' t' Hlt Ht' Hv. unfold token_at in *.
  unfold distinct_values in Hd. rewrite NoDup_nth_error in Hd.
  assert (N.to_nat id = N.to_nat id').
  { apply Hd.
    - rewrite map_length. apply nth_error_Some. congruence.
    - rewrite (map_nth_error _ _ _ Ht), (map_nth_error _ _ _ Ht'). congruence. }
  lia.
Qed.

Lemma Spells_is_Cut vocab ids s :
  distinct_values vocab -> no_empty_token vocab -> Spells vocab ids s -> Cut vocab ids s.
Proof.
  intros Hd Hn. induction 1 as [|id t ids s Ht HS IH]; constructor; auto.
  - now apply distinct_latest.
  - unfold no_empty_token in Hn. rewrite Forall_forall in Hn. apply Hn. eapply token_at_In; eauto.
Qed.

(** ** C01, C04, C05, C06 *)

Section EncodeFacts.
  Variables (vocab : list scored_token) (Hfits : fits vocab).
  Let m := model_from vocab.

  Lemma encode_sound rnd s dropout ids : encode m rnd s dropout = Ok ids -> Cut vocab ids s.
  Proof.
    intros He. destruct (encode_cases rnd dropout Hfits s) as (K & HT & _ & _ & [[_ H]|(es & Ht & H)]);
      unfold m in *; rewrite He in H; [discriminate|]. injection H as ->.
    assert (HO : ordered K) by (eapply thinned_ordered; [exact HT|apply ordered_all]).
    assert (Hb : forall e, In e K -> e_dst e <= length s).
    { intros e' He'. apply (thinned_In _ HT) in He'. apply all_edges_In in He'. lia. }
    apply (traced_path HO Hb) in Ht. apply (path_mono HT) in Ht. apply path_Cut in Ht as [HC _].
    now rewrite firstn_all in HC.
  Qed.

  Lemma encode_total rnd s dropout :
    (exists ids, encode m rnd s dropout = Ok ids) \/
    encode m rnd s dropout = Err (NoPath (length s) (length s)).
  Proof.
    destruct (encode_cases rnd dropout Hfits s) as (K & _ & _ & _ & [[_ H]|(es & _ & H)]); eauto.
  Qed.

  Lemma encode_complete rnd s dropout :
    fleb dropout f0 = true -> (exists ids, Cut vocab ids s) -> exists ids, encode m rnd s dropout = Ok ids.
  Proof.
    intros Hd (ids & HC). destruct (encode_cases rnd dropout Hfits s) as (K & HT & HD & _ & [[Hn H]|(es & _ & H)]); eauto.
    exfalso. specialize (HD Hd). subst K. rewrite <- (firstn_all s) in HC.
    destruct (Cut_path _ (le_n _) HC) as (es & Hp & _).
    revert Hn. apply (fun HO Hb => table_none_path (E := all_edges vocab s) (n := length s) HO Hb Hp).
    - apply ordered_all.
    - intros e He. apply all_edges_In in He. lia.
  Qed.

  Lemma encode_covered rnd s dropout : covers vocab s -> exists ids, encode m rnd s dropout = Ok ids.
  Proof.
    intros Hc. destruct (encode_cases rnd dropout Hfits s) as (K & HT & HD & _ & [[Hn H]|(es & _ & H)]); eauto.
    exfalso.
    assert (HO : ordered K) by (eapply thinned_ordered; [exact HT|apply ordered_all]).
    assert (Hb : forall e, In e K -> e_dst e <= length s).
    { intros e' He'. apply (thinned_In _ HT) in He'. apply all_edges_In in He'. lia. }
    assert (Hpath : forall j, j <= length s -> exists es sc, path K j es sc).
    { induction j as [|j IH]; intros Hj; [exists [], f0; constructor|].
      destruct IH as (es & sc & Hp); [lia|].
      destruct (nth_error s j) as [b|] eqn:Eb; [|apply nth_error_None in Eb; lia].
      unfold covers in Hc. rewrite Forall_forall in Hc. destruct (Hc b (nth_error_In _ _ Eb)) as (t & Hin & Hv).
      destruct (latest_exists _ _ Hin) as (id & t' & Hl & Hv').
      set (e := Edge j (S j) id (st_score t')).
      exists (es ++ [e]), (fadd sc (e_w e)). apply (@path_snoc K es sc e); [exact Hp|].
      apply (@thinned_short K (all_edges vocab s)); [exact HT| |simpl; lia].
      apply all_edges_In. simpl. split; [lia|]. exists t'. split; [exact Hl|]. split; [reflexivity|].
      rewrite Hv', Hv. replace (match j with 0 => S j | S l => j - l end) with 1 by (destruct j; lia).
      clear -Eb. revert j Eb. induction s as [|x s' IH]; intros [|j] Eb; simpl in *; try discriminate.
      - injection Eb as ->. reflexivity.
      - now apply IH. }
    destruct (Hpath (length s) (le_n _)) as (es & sc & Hp). exact (table_none_path HO Hb Hp Hn).
  Qed.

  Lemma encode_drop_all rnd s dropout ids :
    drop_all rnd dropout -> encode m rnd s dropout = Ok ids ->
    Forall (fun id => exists t, token_at vocab id t /\ length (st_value t) = 1) ids.
  Proof.
    intros Hda He. destruct (encode_cases rnd dropout Hfits s) as (K & HT & _ & HA & [[_ H]|(es & Ht & H)]);
      unfold m in *; rewrite He in H; [discriminate|]. injection H as ->.
    assert (HO : ordered K) by (eapply thinned_ordered; [exact HT|apply ordered_all]).
    assert (Hb : forall e, In e K -> e_dst e <= length s).
    { intros e' He'. apply (thinned_In _ HT) in He'. apply all_edges_In in He'. lia. }
    apply (traced_path HO Hb) in Ht. specialize (HA Hda). rewrite Forall_forall in HA.
    rewrite Forall_map, Forall_forall.
    intros e Hin. assert (HeK : In e K).
    { clear -Ht Hin. induction Ht as [|es sc e' Hp IH He']; [easy|].
      apply in_app_iff in Hin as [Hin|[<-|[]]]; auto. }
    specialize (HA e HeK). apply (thinned_In _ HT) in HeK. apply all_edges_In in HeK as (Hd & t & [Ht' _] & _ & Hv).
    exists t. split; [exact Ht'|]. rewrite Hv. replace (e_dst e - e_src e) with 1 by lia.
    rewrite firstn_length_le; [reflexivity|]. rewrite skipn_length. lia.
  Qed.

  (** ** C02, C03 *)

  Lemma encode_optimal rnd s dropout ids :
    finite_scores vocab -> fleb dropout f0 = true -> encode m rnd s dropout = Ok ids ->
    forall ids', Cut vocab ids' s -> fleb (score_of vocab ids') (score_of vocab ids) = true.
  Proof.
    intros Hfin Hd He ids' HC.
    destruct (encode_cases rnd dropout Hfits s) as (K & HT & HD & _ & [[_ H]|(es & Ht & H)]);
      unfold m in He; rewrite He in H; [discriminate|]. injection H as ->. specialize (HD Hd). subst K.
    assert (HO := ordered_all vocab s).
    assert (Hb : forall e, In e (all_edges vocab s) -> e_dst e <= length s).
    { intros e' He'. apply all_edges_In in He'. lia. }
    apply (traced_path HO Hb) in Ht. apply path_Cut in Ht as [_ <-].
    rewrite <- (firstn_all s) in HC. destruct (Cut_path _ (le_n _) HC) as (es' & Hp & _).
    apply (@table_optimal (all_edges vocab s) (length s) HO Hb) with (es := es'); [|exact Hp].
    intros e Hin. apply all_edges_In in Hin as (_ & t & [Ht _] & -> & _).
    unfold finite_scores in Hfin. rewrite Forall_forall in Hfin. apply Hfin. eapply token_at_In; eauto.
  Qed.

  (** The table of a prefix is a prefix of the table. *)
  Lemma filter_flat_map {A B} (f : A -> list B) (q : B -> bool) l :
    filter q (flat_map f l) = flat_map (fun x => filter q (f x)) l.
  Proof. induction l as [|x l IH]; simpl; [reflexivity|]. now rewrite filter_app, IH. Qed.

  Lemma filter_key {B} (f : nat -> list B) (key : B -> nat) k :
    (forall l b, In b (f l) -> key b = l) ->
    forall n a, flat_map (fun l => filter (fun b => key b =? k) (f l)) (seq a n) =
      if (a <=? k) && (k <? a + n) then f k else [].
  Proof.
    intros Hk. induction n as [|n IH]; intros a; simpl.
    - destruct (Nat.leb_spec a k), (Nat.ltb_spec k (a + 0)); simpl; try reflexivity; lia.
    - rewrite IH. destruct (Nat.eq_dec a k) as [->|Hn].
      + replace (filter (fun b => key b =? k) (f k)) with (f k).
        * destruct (Nat.leb_spec (S k) k); [lia|]. simpl. rewrite app_nil_r.
          destruct (Nat.leb_spec k k); [|lia]. destruct (Nat.ltb_spec k (k + S n)); [reflexivity|lia].
        * assert (Hk' := Hk k). revert Hk'. generalize (f k). intros L HL.
          induction L as [|b L IHL]; simpl; [reflexivity|].
          rewrite (HL b) by now left. rewrite Nat.eqb_refl. f_equal. apply IHL. intros; apply HL; now right.
      + replace (filter (fun b => key b =? k) (f a)) with (@nil B).
        * rewrite app_nil_l. destruct (Nat.leb_spec (S a) k), (Nat.leb_spec a k),
            (Nat.ltb_spec k (S a + n)), (Nat.ltb_spec k (a + S n)); simpl; try reflexivity; lia.
        * assert (Hk' := Hk a). revert Hk'. generalize (f a). intros L HL.
          induction L as [|b L IHL]; simpl; [reflexivity|].
          rewrite (HL b) by now left. apply Nat.eqb_neq in Hn. rewrite Hn. apply IHL. intros; apply HL; now right.
  Qed.

  Definition edge_list (s : bytes) (pos l : nat) : list edge :=
    match last_from 0 vocab (firstn l (skipn pos s)) with
    | Some i => [Edge pos (pos + l) (N.of_nat i) (match nth_error vocab i with Some t => st_score t | None => f0 end)]
    | None => [] end.

  Lemma into_edges_from s pos j :
    into j (edges_from vocab s pos) =
    if (pos <? j) && (j <=? length s) then edge_list s pos (j - pos) else [].
  Proof.
    unfold into, edges_from. fold (edge_list s pos). rewrite filter_flat_map.
    destruct (Nat.ltb_spec pos j) as [Hlt|Hge]; cbn [andb].
    - erewrite flat_map_ext_in' with (g := fun l => filter (fun e => e_dst e - pos =? j - pos) (edge_list s pos l)).
      2: { intros l Hl. apply filter_ext_in. intros e He. unfold edge_list in He.
           destruct (last_from 0 vocab _); [|easy]. destruct He as [<-|[]]. simpl.
           destruct (Nat.eqb_spec (pos + l) j), (Nat.eqb_spec (pos + l - pos) (j - pos)); try reflexivity; lia. }
      rewrite (filter_key (edge_list s pos) (fun e => e_dst e - pos)).
      + destruct (Nat.leb_spec 1 (j - pos)); [|lia]. cbn [andb].
        destruct (Nat.ltb_spec (j - pos) (1 + (length s - pos))), (Nat.leb_spec j (length s)); try reflexivity; lia.
      + intros l e He. unfold edge_list in He. destruct (last_from 0 vocab _); [|easy].
        destruct He as [<-|[]]. simpl. lia.
    - erewrite flat_map_ext_in' with (g := fun _ => []); [now apply flat_map_nil|].
      intros l Hl. apply in_seq in Hl. unfold edge_list. destruct (last_from 0 vocab _); [|reflexivity].
      cbn [filter e_dst]. destruct (Nat.eqb_spec (pos + l) j); [lia|reflexivity].
  Qed.

  Lemma into_all_edges s j :
    j <= length s -> into j (all_edges vocab s) = flat_map (fun pos => edge_list s pos (j - pos)) (seq 0 j).
  Proof.
    intros Hj. unfold all_edges. unfold into. rewrite filter_flat_map. fold (into j).
    replace (length s) with (j + (length s - j)) by lia. rewrite seq_app, flat_map_app.
    replace (flat_map _ (seq (0 + j) (length s - j))) with (@nil edge).
    - rewrite app_nil_r. apply flat_map_ext_in'. intros pos Hp. apply in_seq in Hp.
      change (filter (fun e : edge => e_dst e =? j) (edges_from vocab s pos)) with (into j (edges_from vocab s pos)).
      rewrite into_edges_from. destruct (Nat.ltb_spec pos j); [|lia]. now destruct (Nat.leb_spec j (length s)); [|lia].
    - symmetry. erewrite flat_map_ext_in' with (g := fun _ => []); [now apply flat_map_nil|].
      intros pos Hp. apply in_seq in Hp.
      change (filter (fun e : edge => e_dst e =? j) (edges_from vocab s pos)) with (into j (edges_from vocab s pos)).
      rewrite into_edges_from. destruct (Nat.ltb_spec pos j); [lia|reflexivity].
  Qed.

  Lemma edge_list_firstn s pos l k : pos + l <= k -> edge_list (firstn k s) pos l = edge_list s pos l.
  Proof.
    intros H. unfold edge_list. rewrite skipn_firstn_comm, firstn_firstn.
    now replace (Nat.min l (k - pos)) with l by lia.
  Qed.

  Definition table (s : bytes) : list dp_node := fold_left relax (all_edges vocab s) (init_table (length s)).

  Lemma table_eq s j :
    j <= length s ->
    get (table s) j = fold_left (pick (get (table s))) (flat_map (fun pos => edge_list s pos (j - pos)) (seq 0 j))
                        (if j =? 0 then DP 0%N f0 (Some 0) else dflt).
  Proof.
    intros Hj. unfold table. rewrite table_fix, into_all_edges; auto.
    - apply ordered_all.
    - intros e He. apply all_edges_In in He. lia.
  Qed.

  Lemma table_firstn s k : k <= length s -> forall j, j <= k -> get (table (firstn k s)) j = get (table s) j.
  Proof.
    intros Hk. induction j as [j IH] using lt_wf_ind. intros Hj.
    rewrite !table_eq; rewrite ?firstn_length_le; try lia.
    erewrite flat_map_ext_in'.
    2: { intros pos Hp. apply in_seq in Hp. apply edge_list_firstn. lia. }
    apply fold_pick_ext. intros e He. apply in_flat_map in He as (pos & Hp & He). apply in_seq in Hp.
    unfold edge_list in He. destruct (last_from 0 vocab _); [|easy]. destruct He as [<-|[]]. simpl.
    apply IH; lia.
  Qed.

  (** The encoder without dropout, as a function of the table. *)
  Lemma encode_table rnd s dropout :
    fleb dropout f0 = true ->
    (dp_start (get (table s) (length s)) = None /\ encode m rnd s dropout = Err (NoPath (length s) (length s))) \/
    (exists es, traced (all_edges vocab s) (length s) (length s) es /\ encode m rnd s dropout = Ok (map e_id es)).
  Proof.
    intros Hd. destruct (encode_cases rnd dropout Hfits s) as (K & HT & HD & _ & H).
    specialize (HD Hd). subst K. exact H.
  Qed.

  Lemma traced_unique s j es es' : traced (all_edges vocab s) (length s) j es ->
    traced (all_edges vocab s) (length s) j es' -> map e_id es = map e_id es'.
  Proof.
    intros H. revert es'. induction H as [|es e Ht IH Hin Hg Hn]; intros es' H'.
    - inversion H' as [|es0 e0 Ht0 Hin0 Hg0 Hn0 Hd0]; [reflexivity|]. exfalso.
      apply all_edges_In in Hin0. lia.
    - inversion H' as [Hd0|es0 e0 Ht0 Hin0 Hg0 Hn0 Hd0].
      + exfalso. apply all_edges_In in Hin. lia.
      + subst. rewrite Hd0 in Hg0. rewrite Hg in Hg0. unfold cand in Hg0. injection Hg0 as Hi _ Hs.
        rewrite !map_app. simpl. rewrite Hi. f_equal. apply IH. now rewrite Hs.
  Qed.

  Lemma traced_not_none s j es : traced (all_edges vocab s) (length s) j es -> dp_start (get (table s) j) <> None.
  Proof.
    intros Ht.
    assert (HO := ordered_all vocab s).
    assert (Hb : forall e, In e (all_edges vocab s) -> e_dst e <= length s).
    { intros e' He'. apply all_edges_In in He'. lia. }
    exact (table_none_path HO Hb (traced_path HO Hb Ht)).
  Qed.

  Lemma encode_random_free rnd rnd' s dropout dropout' :
    fleb dropout f0 = true -> fleb dropout' f0 = true ->
    encode m rnd s dropout = encode m rnd' s dropout'.
  Proof.
    intros Hd Hd'.
    destruct (encode_table rnd s _ Hd) as [[H1 ->]|(es & H1 & ->)],
             (encode_table rnd' s _ Hd') as [[H2 ->]|(es' & H2 & ->)]; auto.
    - exfalso. exact (traced_not_none _ H2 H1).
    - exfalso. exact (traced_not_none _ H1 H2).
    - f_equal. eapply traced_unique; eauto.
  Qed.

  (** Paths traced in [s] up to [k] are those traced in its prefix of length [k]. *)
  Lemma traced_firstn s k j es : k <= length s -> j <= k ->
    traced (all_edges vocab s) (length s) j es -> traced (all_edges vocab (firstn k s)) k j es.
  Proof.
    intros Hk Hj H. revert Hj. induction H as [|es e Ht IH Hin Hg Hn]; intros Hj; [constructor|].
    assert (Hl : length (firstn k s) = k) by now apply firstn_length_le.
    assert (HT : forall i, i <= k -> get (fold_left relax (all_edges vocab (firstn k s)) (init_table k)) i = get (table s) i).
    { intros i Hi. rewrite <- (table_firstn s Hk Hi). unfold table. now rewrite Hl. }
    assert (Hin' := proj1 (all_edges_In _ _ _) Hin). destruct Hin' as (Hd & t & Hlt & Hw & Hv).
    constructor.
    - apply IH. lia.
    - apply all_edges_In. rewrite Hl. split; [lia|]. exists t. split; [exact Hlt|]. split; [exact Hw|].
      rewrite Hv, skipn_firstn_comm, firstn_firstn. f_equal. lia.
    - unfold cand. rewrite !HT by lia. exact Hg.
    - rewrite HT by lia. exact Hn.
  Qed.

  Lemma encode_traced rnd s k dropout es : fleb dropout f0 = true -> k <= length s ->
    traced (all_edges vocab s) (length s) k es -> encode m rnd (firstn k s) dropout = Ok (map e_id es).
  Proof.
    intros Hd Hk Ht. apply (fun H => traced_firstn s Hk (le_n k) H) in Ht.
    assert (Hl : length (firstn k s) = k) by now apply firstn_length_le.
    rewrite <- Hl in Ht at 2 3.
    destruct (encode_table rnd (firstn k s) _ Hd) as [[Hn H]|(es' & Ht' & H)]; rewrite H.
    - exfalso. exact (traced_not_none _ Ht Hn).
    - f_equal. symmetry. eapply traced_unique; eauto.
  Qed.

  (** Every reachable prefix is encodable, with the table's score. *)
  Lemma encode_reach rnd s k dropout ids : fleb dropout f0 = true -> k <= length s ->
    encode m rnd (firstn k s) dropout = Ok ids ->
    dp_start (get (table s) k) <> None /\ dp_score (get (table s) k) = score_of vocab ids.
  Proof.
    intros Hd Hk He.
    assert (Hl : length (firstn k s) = k) by now apply firstn_length_le.
    destruct (encode_table rnd (firstn k s) _ Hd) as [[Hn H]|(es & Ht & H)];
      unfold m in *; rewrite He in H; [discriminate|]. injection H as ->.
    assert (Hb : forall e, In e (all_edges vocab (firstn k s)) -> e_dst e <= length (firstn k s)).
    { intros e He'. apply all_edges_In in He'. lia. }
    apply (traced_path (ordered_all vocab _) Hb) in Ht.
    assert (Hn := table_none_path (ordered_all vocab _) Hb Ht).
    apply path_Cut in Ht as [_ Hs]. fold (table (firstn k s)) in *.
    rewrite Hl in *. rewrite table_firstn in * by lia. auto.
  Qed.

  (** The winner is strictly better than every candidate that starts earlier. *)
  Lemma fold_pick_strict g L : forall cur,
    (forall e, In e L -> is_none (dp_start (g (e_src e))) = false -> f_is_nan (dp_score (cand g e)) = false) ->
    (is_none (dp_start cur) = false -> f_is_nan (dp_score cur) = false) ->
    let r := fold_left (pick g) L cur in
    r = cur \/
    exists L1 e L2, L = L1 ++ e :: L2 /\ is_none (dp_start (g (e_src e))) = false /\ r = cand g e /\
      (is_none (dp_start cur) = false -> fltb (dp_score cur) (dp_score (cand g e)) = true) /\
      (forall e', In e' L1 -> is_none (dp_start (g (e_src e'))) = false ->
         fltb (dp_score (cand g e')) (dp_score (cand g e)) = true).
  Proof.
    induction L as [|e L IH]; intros cur HL Hc r; simpl in r; subst r; [now left|].
    cbn [fold_left].
    assert (Hc' : is_none (dp_start (pick g cur e)) = false -> f_is_nan (dp_score (pick g cur e)) = false).
    { unfold pick. destruct (is_none (dp_start (g (e_src e)))) eqn:Es; [exact Hc|]. cbv zeta.
      destruct (_ || _); [|exact Hc]. intros _. apply (HL e); [now left|exact Es]. }
    destruct (IH (pick g cur e) (fun e' H => HL e' (or_intror H)) Hc') as [H|H].
    - rewrite H. unfold pick. destruct (is_none (dp_start (g (e_src e)))) eqn:Es; [now left|]. cbv zeta.
      destruct (is_none (dp_start cur)) eqn:Ec; cbn [orb].
      + right. exists [], e, L. split; [reflexivity|]. split; [exact Es|]. split; [reflexivity|].
        split; [discriminate|easy].
      + destruct (fltb _ _) eqn:El; [|now left].
        right. exists [], e, L. split; [reflexivity|]. split; [exact Es|]. split; [reflexivity|].
        split; [intros _; exact El|easy].
    - right. destruct H as (L1 & e1 & L2 & -> & Hs1 & Hr & Hcur & Hpre).
      exists (e :: L1), e1, L2. split; [reflexivity|]. split; [exact Hs1|]. split; [exact Hr|].
      assert (Hn1 : f_is_nan (dp_score (cand g e1)) = false).
      { apply HL; [right; apply in_or_app; right; now left|exact Hs1]. }
      unfold pick in Hcur. split.
      + intros Ec. destruct (is_none (dp_start (g (e_src e)))) eqn:Es; [now apply Hcur|].
        cbv zeta in Hcur. rewrite Ec in Hcur. cbn [orb] in Hcur.
        destruct (fltb _ _) eqn:El; [|now apply Hcur].
        specialize (Hcur eq_refl). simpl in Hcur. eapply fltb_trans; eassumption.
      + intros e' [<-|Hin'] Hs'; [|now apply Hpre].
        rewrite Hs' in Hcur. cbv zeta in Hcur.
        destruct (is_none (dp_start cur)) eqn:Ec; cbn [orb] in Hcur; [now apply Hcur|].
        destruct (fltb (dp_score cur) _) eqn:El; [now apply Hcur|].
        specialize (Hcur Ec). rewrite fltb_fleb in El; auto; [|apply (HL e); [now left|exact Hs']].
        apply negb_false_iff in El. eapply fleb_fltb_trans; eassumption.
  Qed.

  Lemma ordered_split L1 e L2 : ordered (L1 ++ e :: L2) -> forall e', In e' L2 -> e_src e <= e_src e'.
  Proof.
    induction L2 as [|e2 L2 IH] using rev_ind; intros HO e' Hin; [easy|].
    replace (L1 ++ e :: L2 ++ [e2]) with ((L1 ++ e :: L2) ++ [e2]) in HO by now rewrite <- app_assoc.
    inversion HO as [H0|E0 e0 HO' Hle Hlt Heq]; [destruct L1; discriminate|].
    apply app_inj_tail in Heq as [-> ->].
    apply in_app_iff in Hin as [Hin|[<-|[]]]; [now apply IH|].
    apply Hle. apply in_or_app. right. now left.
  Qed.

  Lemma ordered_filter q L : ordered L -> ordered (filter q L).
  Proof.
    induction 1 as [|L e HO IH Hle Hlt]; simpl; [constructor|]. rewrite filter_app. simpl.
    destruct (q e); [|now rewrite app_nil_r]. constructor; auto.
    intros e' He'. apply filter_In in He' as [He' _]. auto.
  Qed.

  Lemma encode_last rnd s dropout ids :
    finite_scores vocab -> fleb dropout f0 = true -> encode m rnd s dropout = Ok ids -> s <> [] ->
    exists ids1 id t s1,
      ids = ids1 ++ [id] /\ s = s1 ++ st_value t /\ latest vocab id t /\ st_value t <> [] /\
      encode m rnd s1 dropout = Ok ids1 /\
      forall id2 t2 s2 ids2,
        s = s2 ++ st_value t2 -> latest vocab id2 t2 -> st_value t2 <> [] -> encode m rnd s2 dropout = Ok ids2 ->
        fleb (score_of vocab (ids2 ++ [id2])) (score_of vocab ids) = true /\
        (length (st_value t) < length (st_value t2) ->
           fltb (score_of vocab (ids2 ++ [id2])) (score_of vocab ids) = true).
  Proof.
    intros Hfin Hd He Hne.
    assert (HO := ordered_all vocab s).
    assert (Hb : forall e, In e (all_edges vocab s) -> e_dst e <= length s).
    { intros e' He'. apply all_edges_In in He'. lia. }
    assert (Hfe : forall e, In e (all_edges vocab s) -> f_is_finite (e_w e) = true).
    { intros e Hin. apply all_edges_In in Hin as (_ & t & [Ht _] & -> & _).
      unfold finite_scores in Hfin. rewrite Forall_forall in Hfin. apply Hfin. eapply token_at_In; eauto. }
    assert (Hsn : 0 < length s) by (destruct s; [congruence|simpl; lia]).
    destruct (encode_table rnd s _ Hd) as [[_ H]|(es & Ht & H)];
      unfold m in *; rewrite He in H; [discriminate|]. injection H as ->.
    assert (Hpath := traced_path HO Hb Ht). apply path_Cut in Hpath as [HCut Hsc].
    inversion Ht as [Hl|es1 e Ht1 Hin Hg Hn Hde Hes]; [lia|]. subst es. rewrite Hde in Ht1, Hg, Hn. fold (table s) in *.
    assert (Hin' := proj1 (all_edges_In _ _ _) Hin). destruct Hin' as (Hdd & t & Hlt & Hw & Hv).
    assert (Hsplit : s = firstn (e_src e) s ++ st_value t).
    { rewrite Hv, <- firstn_skipn_split. replace (e_src e + (e_dst e - e_src e)) with (length s) by lia.
      now rewrite firstn_all. }
    assert (Hlv : length (st_value t) = length s - e_src e).
    { rewrite Hv, firstn_length_le; rewrite ?skipn_length; lia. }
    exists (map e_id es1), (e_id e), t, (firstn (e_src e) s).
    split; [now rewrite map_app|]. split; [exact Hsplit|]. split; [exact Hlt|].
    split; [intros H0; rewrite H0 in Hlv; simpl in Hlv; lia|].
    split; [apply encode_traced; [exact Hd|lia|exact Ht1]|].
    intros id2 t2 s2 ids2 Hs2 Hlt2 Hne2 He2.
    assert (Hl2 : length s2 + length (st_value t2) = length s) by (rewrite <- app_length; congruence).
    assert (Hs2' : s2 = firstn (length s2) s).
    { rewrite Hs2. rewrite firstn_app, Nat.sub_diag, firstn_all, firstn_O. now rewrite app_nil_r. }
    assert (Hpos2 : 0 < length (st_value t2)) by (destruct (st_value t2); [congruence|simpl; lia]).
    set (e2 := Edge (length s2) (length s) id2 (st_score t2)).
    assert (Hin2 : In e2 (all_edges vocab s)).
    { apply all_edges_In. simpl. split; [lia|]. exists t2. split; [exact Hlt2|]. split; [reflexivity|].
      rewrite Hs2 at 2. rewrite skipn_app, Nat.sub_diag, skipn_all. simpl.
      replace (length s - length s2) with (length (st_value t2)) by lia. now rewrite firstn_all. }
    rewrite Hs2' in He2. destruct (@encode_reach rnd s (length s2) dropout ids2 Hd ltac:(lia) He2) as [Hr2 Hsc2].
    assert (Hscore2 : score_of vocab (ids2 ++ [id2]) = dp_score (cand (get (table s)) e2)).
    { rewrite (score_of_snoc ids2 (proj1 Hlt2)). simpl. now rewrite Hsc2. }
    rewrite Hscore2, <- Hsc. split.
    - assert (H := table_max HO Hb Hfe e2 Hin2 Hr2). destruct H as [_ H]. exact H.
    - intros Hlonger.
      assert (Hnone : forall e, dp_start (get (table s) (e_src e)) <> None ->
                is_none (dp_start (get (table s) (e_src e))) = false).
      { intros e0 H0. destruct (dp_start (get (table s) (e_src e0))); [reflexivity|congruence]. }
      destruct (@fold_pick_strict (get (table s)) (into (length s) (all_edges vocab s)) dflt) as [Hr|Hr].
      + intros e0 He0 Hs0. apply into_In in He0 as [He0 _]. simpl. apply fadd_not_nan; [|now apply Hfe].
        unfold table. apply (table_not_nan HO Hb Hfe). intros H0. unfold table in Hs0. rewrite H0 in Hs0. discriminate.
      + intros H0. discriminate.
      + exfalso. assert (Hfix := table_fix HO Hb (length s)). fold (table s) in Hfix.
        replace (length s =? 0) with false in Hfix by (symmetry; apply Nat.eqb_neq; lia).
        rewrite Hr in Hfix. rewrite Hg in Hfix. discriminate.
      + destruct Hr as (L1 & e1 & L2 & HL & Hs1 & Hr & _ & Hpre).
        assert (Hfix := table_fix HO Hb (length s)). fold (table s) in Hfix.
        replace (length s =? 0) with false in Hfix by (symmetry; apply Nat.eqb_neq; lia).
        rewrite Hr in Hfix. fold (table s). rewrite Hfix.
        assert (Hsrc : e_src e1 = e_src e).
        { rewrite Hg in Hfix. unfold cand in Hfix. injection Hfix as _ _ Hx. now symmetry. }
        apply Hpre; [|now apply Hnone].
        assert (Hin2' : In e2 (L1 ++ e1 :: L2)) by (rewrite <- HL; apply into_In; auto).
        assert (HOi : ordered (L1 ++ e1 :: L2)) by (rewrite <- HL; now apply ordered_filter).
        apply in_app_iff in Hin2' as [H2|[H2|H2]]; [exact H2| |].
        * exfalso. rewrite H2 in Hsrc. simpl in Hsrc. lia.
        * exfalso. apply (ordered_split _ _ _ HOi) in H2. simpl in H2. lia.
  Qed.
End EncodeFacts.

(** ** Lookups *)

Lemma token_to_id_iff vocab v id :
  fits vocab ->
  token_to_id (model_from vocab) v = Some id <-> exists t, latest vocab id t /\ st_value t = v.
Proof.
  intros [Hf _]. rewrite token_to_id_last. split.
  - destruct (last_from 0 vocab v) as [i|] eqn:E; [|discriminate]. simpl. intros [= <-].
    assert (Hi := last_from_bound _ _ E). rewrite as_u32_small by lia. now apply last_from_latest.
  - intros H. rewrite <- (N2Nat.id id) in H. apply last_from_latest in H. rewrite H. simpl.
    apply last_from_bound in H. rewrite as_u32_small by lia. now rewrite N2Nat.id.
Qed.

Lemma cps_In vocab s id len :
  fits vocab ->
  In (id, len) (common_prefix_search (model_from vocab) s) <->
  exists t r, latest vocab id t /\ st_value t <> [] /\ s = st_value t ++ r /\ len = N.of_nat (length (st_value t)).
Proof.
  intros [Hf1 Hf2]. rewrite cps_last, in_flat_map. split.
  - intros (l & Hl & Hin). apply in_seq in Hl.
    destruct (last_from 0 vocab (firstn l s)) as [i|] eqn:E; [|easy].
    destruct Hin as [[= <- <-]|[]].
    assert (Hi := last_from_bound _ _ E). apply last_from_latest in E as (t & Ht & Hv).
    rewrite as_u32_small by lia. exists t, (skipn l s). split; [exact Ht|].
    assert (Hlen : length (st_value t) = l) by (rewrite Hv; apply firstn_length_le; lia).
    split; [intros H0; rewrite H0 in Hlen; simpl in Hlen; lia|].
    split; [now rewrite Hv, firstn_skipn|]. rewrite Hlen. apply as_u32_small.
    rewrite Forall_forall in Hf2. specialize (Hf2 t (token_at_In (proj1 Ht))). simpl in Hf2. now rewrite <- Hlen.
  - intros (t & r & Ht & Hne & -> & ->). exists (length (st_value t)). rewrite app_length.
    split; [apply in_seq; destruct (st_value t); [congruence|simpl; lia]|].
    rewrite firstn_app, Nat.sub_diag, firstn_all, firstn_O, app_nil_r.
    assert (E : last_from 0 vocab (st_value t) = Some (N.to_nat id)).
    { apply last_from_latest. exists t. rewrite N2Nat.id. auto. }
    rewrite E. left. f_equal.
    + rewrite as_u32_small; [apply N2Nat.id|]. apply last_from_bound in E. lia.
    + apply as_u32_small. rewrite Forall_forall in Hf2. exact (Hf2 t (token_at_In (proj1 Ht))).
Qed.

Lemma cps_sorted vocab s :
  fits vocab -> StronglySorted N.lt (map snd (common_prefix_search (model_from vocab) s)).
Proof.
  intros [Hf1 Hf2]. rewrite cps_last.
  assert (H : forall n a, a + n = S (length s) ->
    StronglySorted N.lt (map snd (flat_map (fun l => match last_from 0 vocab (firstn l s) with
                     | Some i => [(as_u32 i, as_u32 l)] | None => [] end) (seq a n))) /\
    Forall (fun x => (N.of_nat a <= x)%N) (map snd (flat_map (fun l => match last_from 0 vocab (firstn l s) with
                     | Some i => [(as_u32 i, as_u32 l)] | None => [] end) (seq a n)))).
  { induction n as [|n IH]; intros a Ha; simpl; [split; constructor|].
    destruct (IH (S a) ltac:(lia)) as [IH1 IH2].
    destruct (last_from 0 vocab (firstn a s)) as [i|] eqn:E; simpl.
    - apply last_from_latest in E as (t & Ht & Hv).
      assert (Hlen : length (st_value t) = a) by (rewrite Hv; apply firstn_length_le; lia).
      rewrite Forall_forall in Hf2. specialize (Hf2 t (token_at_In (proj1 Ht))). simpl in Hf2. rewrite Hlen in Hf2.
      rewrite (as_u32_small a Hf2).
      split; constructor; auto; try lia.
      + eapply Forall_impl; [|exact IH2]. simpl. intros; lia.
      + eapply Forall_impl; [|exact IH2]. simpl. intros; lia.
    - split; [exact IH1|]. eapply Forall_impl; [|exact IH2]. simpl. intros; lia. }
  apply H. lia.
Qed.

(** ** Decoding ids to bytes *)

Lemma decode_bytes_acc m ids : forall acc,
  decode_bytes m ids acc = (bs <- decode_bytes m ids [];; Ok (acc ++ bs)).
Proof.
  induction ids as [|id ids IH]; intros acc; cbn [decode_bytes bind].
  - now rewrite app_nil_r.
  - destruct (_ <=? id)%N; [reflexivity|]. destruct (index (m_vocab m) (N.to_nat id)) as [t| | |]; cbn [bind]; try reflexivity.
    rewrite IH, (IH ([] ++ st_value t)). destruct (decode_bytes m ids []); cbn [bind]; try reflexivity.
    now rewrite app_assoc.
Qed.

Lemma decode_bytes_Spells vocab ids bs :
  fits vocab -> decode_bytes (model_from vocab) ids [] = Ok bs <-> Spells vocab ids bs.
Proof.
  intros Hf. revert bs. induction ids as [|id ids IH]; intros bs; cbn [decode_bytes].
  - split; [intros [= <-]; constructor|]. inversion 1. reflexivity.
  - unfold vocab_size. rewrite model_from_vocab. rewrite as_u32_small by apply Hf.
    destruct (N.leb_spec (N.of_nat (length vocab)) id) as [Hge|Hlt].
    + split; [discriminate|]. inversion 1 as [|id' t ids' s Ht HS]; subst.
      unfold token_at in Ht. assert (N.to_nat id < length vocab) by (apply nth_error_Some; congruence). lia.
    + unfold index. destruct (nth_error vocab (N.to_nat id)) as [t|] eqn:Et; cbn [bind].
      * rewrite decode_bytes_acc. simpl. split.
        -- destruct (decode_bytes (model_from vocab) ids []) as [bs'| | |] eqn:E; cbn [bind]; try discriminate.
           intros [= <-]. constructor; [exact Et|]. now apply IH.
        -- inversion 1 as [|id' t' ids' s Ht HS]; subst. unfold token_at in Ht.
           replace t' with t by congruence. apply IH in HS. rewrite HS. reflexivity.
      * apply nth_error_None in Et. lia.
Qed.

(** ** Dropout at its bounds *)

Lemma drop_all_one rnd dropout :
  fleb f1 dropout = true -> (forall k, fltb (rnd k) f1 = true) -> drop_all rnd dropout.
Proof.
  intros Hd Hr. split.
  - assert (Hn := fleb_nan_r _ _ Hd). destruct (fleb dropout f0) eqn:E; [|reflexivity].
    assert (H := fleb_trans _ _ _ Hd E). discriminate H.
  - intros k. assert (H := fltb_fleb_trans _ _ _ (Hr k) Hd). apply fltb_fleb_weak in H.
    destruct (fltb dropout (rnd k)) eqn:E; [|reflexivity].
    apply fltb_irrefl_rev in E. congruence.
Qed.

Lemma drop_all_nan rnd : drop_all rnd fnan.
Proof. split; [reflexivity|]. intros k. destruct (rnd k) as [|[]| |]; reflexivity. Qed.

Lemma encode_iff vocab rnd s dropout :
  fits vocab -> fleb dropout f0 = true ->
  ((exists ids, Spells vocab ids s) /\ (exists ids, encode (model_from vocab) rnd s dropout = Ok ids)) \/
  ((forall ids, ~ Spells vocab ids s) /\ encode (model_from vocab) rnd s dropout = Err (NoPath (length s) (length s))).
Proof.
  intros Hf Hd. destruct (encode_total Hf rnd s dropout) as [(ids & H)|H].
  - left. split; [|now exists ids]. exists ids. apply Cut_Spells. eapply encode_sound; [exact Hf|exact H].
  - right. split; [|exact H]. intros ids HS. destruct (Spells_Cut HS) as (ids' & HC).
    edestruct encode_complete as (ids'' & H'); [exact Hf|exact Hd|exists ids'; exact HC|]. rewrite H in H'. discriminate.
Qed.

Lemma Cut_latest vocab ids s : Cut vocab ids s -> Forall (fun id => exists t, latest vocab id t) ids.
Proof. induction 1; constructor; eauto. Qed.

Lemma cps_token_to_id vocab s id len :
  fits vocab -> In (id, len) (common_prefix_search (model_from vocab) s) ->
  token_to_id (model_from vocab) (firstn (N.to_nat len) s) = Some id.
Proof.
  intros Hf H. apply (cps_In _ _ _ Hf) in H as (t & r & Hl & Hn & -> & ->). apply token_to_id_iff; [exact Hf|].
  exists t. split; [exact Hl|]. rewrite Nat2N.id, firstn_app, firstn_all, Nat.sub_diag, firstn_O. now rewrite app_nil_r.
Qed.

Lemma cps_complete vocab s t r :
  fits vocab -> In t vocab -> st_value t <> [] -> s = st_value t ++ r ->
  exists id, In (id, N.of_nat (length (st_value t))) (common_prefix_search (model_from vocab) s) /\
             token_to_id (model_from vocab) (st_value t) = Some id.
Proof.
  intros Hf Hin Hn Hs. destruct (latest_exists _ _ Hin) as (id & t' & Hl & Hv). exists id. split.
  - apply cps_In; [exact Hf|]. exists t', r. rewrite Hv. auto.
  - apply token_to_id_iff; [exact Hf|]. exists t'. auto.
Qed.
