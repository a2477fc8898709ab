(** Lemmas about src/model.rs: lookups, prefix search, the encoder. *)
From Verif Require Import Base BaseProofs F64 F64Proofs Utf8 Trie TrieProofs Model SpecModel DpProofs.
Set Implicit Arguments.

(** ** Lookups *)

(** The last index (counting from [k]) at which [v] occurs. *)
Fixpoint last_from (k : nat) (vocab : list scored_token) (v : bytes) : option nat :=
  match vocab with
  | [] => None
  | t :: r =>
      match last_from (S k) r v with
      | Some i => Some i
      | None => if bytes_eqb v (st_value t) then Some k else None
      end
  end.

Lemma last_from_spec vocab v : forall k,
  match last_from k vocab v with
  | Some i => k <= i /\ (exists t, nth_error vocab (i - k) = Some t /\ st_value t = v) /\
              (forall j t, i - k < j -> nth_error vocab j = Some t -> st_value t <> v)
  | None => forall j t, nth_error vocab j = Some t -> st_value t <> v
  end.
Proof.
  induction vocab as [|t r IH]; intros k; cbn [last_from].
  - intros [|j] t' H; discriminate.
  - specialize (IH (S k)). destruct (last_from (S k) r v) as [i|].
    + destruct IH as (Hle & (t' & Ht' & Hv) & Hlast). split; [lia|]. split.
      * exists t'. replace (i - k) with (S (i - S k)) by lia. auto.
      * intros [|j] t'' Hj; [lia|]. simpl. apply Hlast. lia.
    + destruct (bytes_eqb_spec v (st_value t)) as [->|Hn].
      * split; [lia|]. rewrite Nat.sub_diag. split; [now exists t|].
        intros [|j] t'' Hj; [lia|]. simpl. apply IH.
      * intros [|j] t'' Hj; simpl in Hj; [injection Hj as <-; congruence|]. now apply (IH j).
Qed.

Lemma last_from_bound vocab v i : last_from 0 vocab v = Some i -> i < length vocab.
Proof.
  intros H. assert (Hs := last_from_spec vocab v 0). rewrite H in Hs.
  destruct Hs as (_ & (t & Ht & _) & _). rewrite Nat.sub_0_r in Ht. apply nth_error_Some. congruence.
Qed.

Lemma last_from_latest vocab v i :
  last_from 0 vocab v = Some i <-> exists t, latest vocab (N.of_nat i) t /\ st_value t = v.
Proof.
  assert (Hs := last_from_spec vocab v 0). unfold latest, token_at. split.
  - intros H. rewrite H in Hs. destruct Hs as (_ & (t & Ht & Hv) & Hl). rewrite Nat.sub_0_r in *.
    exists t. rewrite Nat2N.id. split; [|exact Hv]. split; [exact Ht|].
    intros id' t' Hlt Ht'. rewrite Hv. apply (Hl (N.to_nat id')); [lia|exact Ht'].
  - intros (t & (Ht & Hl) & Hv). rewrite Nat2N.id in Ht.
    destruct (last_from 0 vocab v) as [i'|].
    + destruct Hs as (_ & (t' & Ht' & Hv') & Hl'). rewrite Nat.sub_0_r in *.
      destruct (lt_eq_lt_dec i i') as [[Hlt| ->]|Hgt]; [|reflexivity|].
      * exfalso. apply (Hl (N.of_nat i') t'); [lia|now rewrite Nat2N.id|congruence].
      * exfalso. apply (Hl' i t Hgt Ht Hv).
    + exfalso. exact (Hs i t Ht Hv).
Qed.

Lemma from_loop_ids v toks : forall k ids t,
  hm_get bytes_eqb v (fst (from_loop k toks ids t)) =
  match last_from k toks v with Some i => Some (as_u32 i) | None => hm_get bytes_eqb v ids end.
Proof.
  induction toks as [|tok toks IH]; intros k ids t; cbn [from_loop last_from]; [reflexivity|].
  rewrite IH. destruct (last_from (S k) toks v); [reflexivity|].
  rewrite (hm_get_insert bytes_eqb_spec). now destruct (bytes_eqb v (st_value tok)).
Qed.

Lemma from_loop_trie v toks : forall k ids t,
  t_find (snd (from_loop k toks ids t)) v =
  match last_from k toks v with Some i => Some (as_u32 i, as_u32 (length v)) | None => t_find t v end.
Proof.
  induction toks as [|tok toks IH]; intros k ids t; cbn [from_loop last_from]; [reflexivity|].
  rewrite IH. destruct (last_from (S k) toks v); [reflexivity|].
  rewrite t_find_push. destruct (bytes_eqb_spec v (st_value tok)) as [->|]; reflexivity.
Qed.

Lemma model_from_vocab vocab : m_vocab (model_from vocab) = vocab.
Proof. unfold model_from. now destruct (from_loop 0 vocab [] t_default). Qed.

Lemma token_to_id_last vocab v :
  token_to_id (model_from vocab) v = option_map as_u32 (last_from 0 vocab v).
Proof.
  unfold token_to_id, model_from. assert (H := from_loop_ids v vocab 0 [] t_default).
  destruct (from_loop 0 vocab [] t_default) as [ids t]. simpl in *. rewrite H.
  now destruct (last_from 0 vocab v).
Qed.

Lemma trie_last vocab v :
  t_find (m_trie (model_from vocab)) v =
  option_map (fun i => (as_u32 i, as_u32 (length v))) (last_from 0 vocab v).
Proof.
  unfold model_from. assert (H := from_loop_trie v vocab 0 [] t_default).
  destruct (from_loop 0 vocab [] t_default) as [ids t]. simpl in *. rewrite H.
  destruct (last_from 0 vocab v); [reflexivity|apply t_find_default].
Qed.

Lemma cps_last vocab s :
  common_prefix_search (model_from vocab) s =
  flat_map (fun l => match last_from 0 vocab (firstn l s) with
                     | Some i => [(as_u32 i, as_u32 l)] | None => [] end) (seq 1 (length s)).
Proof.
  unfold common_prefix_search. rewrite search_hits. unfold prefix_hits.
  apply flat_map_ext_in'. intros l Hl. apply in_seq in Hl. rewrite trie_last.
  destruct (last_from 0 vocab (firstn l s)); [|reflexivity]. simpl.
  rewrite firstn_length_le by lia. reflexivity.
Qed.

(** ** Additions *)

Lemma from_loop_app a : forall k b ids t,
  from_loop k (a ++ b) ids t =
  let '(ids', t') := from_loop k a ids t in from_loop (k + length a) b ids' t'.
Proof.
  induction a as [|x a IH]; intros k b ids t; cbn [from_loop app length].
  - now rewrite Nat.add_0_r.
  - rewrite IH. now rewrite <- plus_n_Sm.
Qed.

Lemma add_tokens_from a b : add_tokens (model_from a) b = model_from (a ++ b).
Proof.
  unfold add_tokens. revert a. induction b as [|x b IH]; intros a; cbn [fold_left].
  - now rewrite app_nil_r.
  - replace (a ++ x :: b) with ((a ++ [x]) ++ b) by now rewrite <- app_assoc.
    rewrite <- IH. f_equal. unfold add_token, model_from. rewrite from_loop_app.
    destruct (from_loop 0 a [] t_default) as [ids t]. cbn. reflexivity.
Qed.

(** ** Edges *)

Definition edges_from (vocab : list scored_token) (s : bytes) (pos : nat) : list edge :=
  flat_map (fun l => match last_from 0 vocab (firstn l (skipn pos s)) with
                     | Some i => [Edge pos (pos + l) (N.of_nat i)
                                    (match nth_error vocab i with Some t => st_score t | None => f0 end)]
                     | None => [] end) (seq 1 (length s - pos)).

Definition all_edges (vocab : list scored_token) (s : bytes) : list edge :=
  flat_map (edges_from vocab s) (seq 0 (length s)).

Lemma edges_from_In vocab s pos e :
  In e (edges_from vocab s pos) <->
  e_src e = pos /\ pos < e_dst e <= length s /\
  exists t, latest vocab (e_id e) t /\ e_w e = st_score t /\ st_value t = firstn (e_dst e - pos) (skipn pos s).
Proof.
  unfold edges_from. rewrite in_flat_map. split.
  - intros (l & Hl & Hin). apply in_seq in Hl.
    destruct (last_from 0 vocab (firstn l (skipn pos s))) as [i|] eqn:E; [|easy].
    destruct Hin as [<-|[]]. simpl. split; [reflexivity|]. split; [lia|].
    apply last_from_latest in E as (t & Ht & Hv). exists t. split; [exact Ht|].
    destruct Ht as [Ht _]. unfold token_at in Ht. rewrite Nat2N.id in Ht. rewrite Ht. split; [reflexivity|].
    rewrite Hv. f_equal. lia.
  - intros (<- & Hd & t & Ht & Hw & Hv). exists (e_dst e - e_src e). split; [apply in_seq; lia|].
    assert (H : last_from 0 vocab (firstn (e_dst e - e_src e) (skipn (e_src e) s)) = Some (N.to_nat (e_id e))).
    { apply last_from_latest. exists t. rewrite N2Nat.id. auto. }
    rewrite H. left. destruct Ht as [Ht _]. unfold token_at in Ht. rewrite Ht, N2Nat.id.
    destruct e as [a b c d]; simpl in *. rewrite Hw. f_equal. lia.
Qed.

Lemma all_edges_In vocab s e :
  In e (all_edges vocab s) <->
  e_src e < e_dst e <= length s /\
  exists t, latest vocab (e_id e) t /\ e_w e = st_score t /\
            st_value t = firstn (e_dst e - e_src e) (skipn (e_src e) s).
Proof.
  unfold all_edges. rewrite in_flat_map. split.
  - intros (pos & Hp & Hin). apply edges_from_In in Hin as (<- & Hd & H). auto.
  - intros (Hd & H). exists (e_src e). split; [apply in_seq; lia|]. apply edges_from_In. auto.
Qed.

Lemma ordered_app_one E pos L :
  ordered E -> (forall e, In e E -> e_src e <= pos) ->
  (forall e, In e L -> e_src e = pos /\ pos < e_dst e) -> ordered (E ++ L).
Proof.
  intros HE HEp. induction L as [|e L IH] using rev_ind; intros HL.
  - now rewrite app_nil_r.
  - rewrite app_assoc. destruct (HL e) as [Hs Hd]; [apply in_or_app; right; now left|].
    constructor; [|rewrite Hs|now rewrite Hs].
    + apply IH. intros e' He'. apply HL. apply in_or_app. now left.
    + intros e' He'. apply in_app_iff in He' as [He'|He']; [now apply HEp|].
      destruct (HL e') as [-> _]; [apply in_or_app; now left|lia].
Qed.

Lemma ordered_edges_upto vocab s k : ordered (flat_map (edges_from vocab s) (seq 0 k)).
Proof.
  induction k as [|k IH]; [constructor|].
  rewrite seq_S, flat_map_app. simpl. rewrite app_nil_r. apply ordered_app_one with (pos := k); [exact IH| |].
  - intros e He. apply in_flat_map in He as (p & Hp & He). apply in_seq in Hp.
    apply edges_from_In in He as (<- & _). lia.
  - intros e He. apply edges_from_In in He as (-> & Hd & _). lia.
Qed.

Lemma ordered_all vocab s : ordered (all_edges vocab s).
Proof. apply ordered_edges_upto. Qed.

(** [thinned K L]: [K] is [L] without some edges longer than one byte. *)
Inductive thinned : list edge -> list edge -> Prop :=
| thinned_nil : thinned [] []
| thinned_keep e K L : thinned K L -> thinned (e :: K) (e :: L)
| thinned_drop e K L : S (e_src e) < e_dst e -> thinned K L -> thinned K (e :: L).

Lemma thinned_refl L : thinned L L.
Proof. induction L; constructor; auto. Qed.

Lemma thinned_app K1 L1 K2 L2 : thinned K1 L1 -> thinned K2 L2 -> thinned (K1 ++ K2) (L1 ++ L2).
Proof. intros H1 H2. induction H1; simpl; [exact H2|constructor; auto|constructor; auto]. Qed.

Lemma thinned_In K L e : thinned K L -> In e K -> In e L.
Proof. induction 1; simpl; intuition. Qed.

Lemma thinned_short K L e : thinned K L -> In e L -> e_dst e <= S (e_src e) -> In e K.
Proof. intros H He Hs. induction H; simpl in *; intuition (subst; try lia; auto). Qed.

Lemma thinned_filter L : (forall e, In e L -> e_src e < e_dst e) ->
  thinned (filter (fun e => e_dst e <=? S (e_src e)) L) L.
Proof.
  induction L as [|e L IH]; intros H; simpl; [constructor|].
  assert (IH' := IH (fun e' He => H e' (or_intror He))).
  destruct (Nat.leb_spec (e_dst e) (S (e_src e))); constructor; auto.
Qed.

Lemma thinned_ordered K L : thinned K L -> ordered L -> ordered K.
Proof.
  intros Ht HL. revert K Ht. induction HL as [|L e HL IH Hle Hlt]; intros K Ht.
  - inversion Ht. constructor.
  - assert (Hsplit : exists K1 K2, K = K1 ++ K2 /\ thinned K1 L /\ thinned K2 [e]).
    { clear -Ht. revert K Ht. induction L as [|x L IH]; intros K Ht; simpl in Ht.
      - exists [], K. repeat split; [constructor|exact Ht].
      - inversion Ht as [|? K' ? Ht' |? ? ? Hx Ht']; subst; destruct (IH _ Ht') as (K1 & K2 & -> & H1 & H2).
        + exists (x :: K1), K2. repeat split; [now constructor|exact H2].
        + exists K1, K2. repeat split; [now constructor|exact H2]. }
    destruct Hsplit as (K1 & K2 & -> & H1 & H2).
    inversion H2 as [|? K' ? Ht' |? ? ? Hx Ht']; subst; inversion Ht'; subst.
    + constructor; [now apply IH| |exact Hlt]. intros e' He'. apply Hle. eapply thinned_In; eauto.
    + rewrite app_nil_r. now apply IH.
Qed.

(** ** The loops of the encoder, as relaxing edges *)

Definition to_edge (vocab : list scored_token) (pos : nat) (m : N * N) : edge :=
  Edge pos (pos + N.to_nat (snd m)) (fst m)
    (match nth_error vocab (N.to_nat (fst m)) with Some t => st_score t | None => f0 end).

Section Encoder.
  Variables (vocab : list scored_token) (rnd : nat -> f64) (dropout : f64).

  Definition drop_all : Prop := fleb dropout f0 = false /\ forall k, fltb dropout (rnd k) = false.

  Lemma encode_inner_relax pos matches : forall dp k,
    pos < length dp -> is_none (dp_start (get dp pos)) = false ->
    Forall (fun m => 0 < N.to_nat (snd m) /\ pos + N.to_nat (snd m) < length dp /\
                     N.to_nat (fst m) < length vocab) matches ->
    exists K k', thinned K (map (to_edge vocab pos) matches) /\
      encode_inner vocab rnd dropout pos matches dp k = Ok (fold_left relax K dp, k') /\
      (fleb dropout f0 = true -> K = map (to_edge vocab pos) matches /\ k' = k) /\
      (drop_all -> Forall (fun e => e_dst e <= S (e_src e)) K).
  Proof.
    induction matches as [|[id len32] ms IH]; intros dp k Hpos Hr Hall.
    - exists [], k. repeat split; constructor.
    - inversion Hall as [|? ? Hm Hms]; subst. simpl in Hm. destruct Hm as (H0 & Hlen & Hid).
      cbn [encode_inner]. cbv zeta. set (len := N.to_nat len32) in *.
      rewrite !index_nth with (d := dflt) by assumption. fold (get dp (pos + len)) (get dp pos). cbn [bind].
      destruct (nth_error vocab (N.to_nat id)) as [t|] eqn:Et; [|apply nth_error_None in Et; lia].
      unfold index at 1. rewrite Et. cbn [bind].
      set (e := to_edge vocab pos (id, len32)).
      assert (He : e = Edge pos (pos + len) id (st_score t)) by (unfold e, to_edge; simpl; now rewrite Et).
      assert (Hgr : get (relax dp e) pos = get dp pos).
      { rewrite get_relax; rewrite He; simpl; [|exact Hlen].
        destruct (Nat.eqb_spec pos (pos + len)); [lia|reflexivity]. }
      assert (Hms1 : Forall (fun m => 0 < N.to_nat (snd m) /\ pos + N.to_nat (snd m) < length (relax dp e) /\
                     N.to_nat (fst m) < length vocab) ms) by (now rewrite relax_length).
      destruct (dropout_pass rnd dropout len k) as [pass k1] eqn:Ep. destruct pass; cbn [andb].
      + assert (Hstep : (if is_none (dp_start (get dp (pos + len))) ||
              fltb (dp_score (get dp (pos + len))) (fadd (dp_score (get dp pos)) (st_score t))
            then dp' <- store dp (pos + len) (DP id (fadd (dp_score (get dp pos)) (st_score t)) (Some pos));;
                 encode_inner vocab rnd dropout pos ms dp' k1
            else encode_inner vocab rnd dropout pos ms dp k1)
            = encode_inner vocab rnd dropout pos ms (relax dp e) k1).
        { unfold relax. rewrite He. simpl. rewrite Hr. cbv zeta.
          destruct (_ || _); [|reflexivity]. rewrite store_ok by assumption. reflexivity. }
        rewrite Hstep. destruct (IH (relax dp e) k1) as (K & k' & HT & HE & HD & HA).
        { now rewrite relax_length. } { now rewrite Hgr. } { exact Hms1. }
        exists (e :: K), k'. split; [now constructor|]. split; [exact HE|]. split.
        * intros Hd. destruct (HD Hd) as [-> ->]. split; [reflexivity|].
          unfold dropout_pass in Ep. rewrite Hd in Ep. now injection Ep as ->.
        * intros Hda. constructor; [|now apply HA]. rewrite He. simpl.
          destruct Hda as [Hd0 Hd1]. unfold dropout_pass in Ep. rewrite Hd0 in Ep.
          destruct (Nat.leb_spec len 1); [lia|]. injection Ep as Hc _. rewrite Hd1 in Hc. discriminate.
      + destruct (IH dp k1 Hpos Hr Hms) as (K & k' & HT & HE & HD & HA).
        exists K, k'. split; [|split; [exact HE|split; [|exact HA]]].
        * apply thinned_drop; [|exact HT]. fold e. rewrite He. simpl.
          unfold dropout_pass in Ep. destruct (fleb dropout f0); [discriminate|].
          destruct (Nat.leb_spec len 1); [discriminate|lia].
        * intros Hd. unfold dropout_pass in Ep. rewrite Hd in Ep. discriminate.
  Qed.

  Hypothesis Hfits : fits vocab.

  Lemma cps_edges s pos :
    pos <= length s ->
    map (to_edge vocab pos) (common_prefix_search (model_from vocab) (skipn pos s)) = edges_from vocab s pos.
  Proof.
    intros Hp. rewrite cps_last. unfold edges_from. rewrite skipn_length.
    rewrite flat_map_concat_map, concat_map, map_map, <- flat_map_concat_map.
    apply flat_map_ext_in'. intros l Hl. apply in_seq in Hl.
    destruct (last_from 0 vocab (firstn l (skipn pos s))) as [i|] eqn:E; [|reflexivity].
    assert (Hi := last_from_bound _ _ E). apply last_from_latest in E as (t & (Ht & _) & Hv).
    unfold token_at in Ht. rewrite Nat2N.id in Ht.
    destruct Hfits as [Hf1 Hf2]. rewrite Forall_forall in Hf2.
    assert (Hll : (N.of_nat l < 2 ^ 32)%N).
    { assert (Hlt := Hf2 t (nth_error_In _ _ Ht)). simpl in Hlt.
      rewrite Hv, firstn_length_le in Hlt; [exact Hlt|]. rewrite skipn_length. lia. }
    simpl. unfold to_edge. simpl. rewrite !as_u32_small by lia. rewrite !Nat2N.id. reflexivity.
  Qed.

  Lemma cps_bounds s pos n :
    pos <= length s -> length s < n ->
    Forall (fun m => 0 < N.to_nat (snd m) /\ pos + N.to_nat (snd m) < n /\
                     N.to_nat (fst m) < length vocab)
      (common_prefix_search (model_from vocab) (skipn pos s)).
  Proof.
    intros Hp Hn. apply Forall_forall. intros m Hm.
    assert (He : In (to_edge vocab pos m) (edges_from vocab s pos))
      by (rewrite <- cps_edges by assumption; now apply in_map).
    apply edges_from_In in He as (_ & Hd & t & (Ht & _) & _). simpl in *.
    split; [lia|]. split; [lia|]. apply nth_error_Some. unfold token_at in Ht. congruence.
  Qed.

  Lemma encode_outer_relax s suffix : forall pos dp k,
    suffix = skipn pos s -> pos + length suffix = length s -> length dp = S (length s) ->
    exists K, thinned K (flat_map (edges_from vocab s) (seq pos (length suffix))) /\
      encode_outer (model_from vocab) rnd dropout suffix pos dp k = Ok (fold_left relax K dp) /\
      (fleb dropout f0 = true -> K = flat_map (edges_from vocab s) (seq pos (length suffix))) /\
      (drop_all -> Forall (fun e => e_dst e <= S (e_src e)) K).
  Proof.
    induction suffix as [|b suffix IH]; intros pos dp k Hsuf Hlen Hdp.
    - exists []. repeat split; try constructor.
    - cbn [encode_outer length seq flat_map]. simpl in Hlen.
      assert (Hsuf' : suffix = skipn (S pos) s).
      { replace (S pos) with (pos + 1) by lia. rewrite <- skipn_skipn', <- Hsuf. reflexivity. }
      rewrite index_nth with (d := dflt) by lia. fold (get dp pos). cbn [bind].
      destruct (is_none (dp_start (get dp pos))) eqn:Er.
      + destruct (IH (S pos) dp k Hsuf' ltac:(lia) Hdp) as (K & HT & HE & HD & HA).
        set (K0 := if fleb dropout f0 then edges_from vocab s pos
                   else filter (fun e => e_dst e <=? S (e_src e)) (edges_from vocab s pos)).
        assert (HT0 : thinned K0 (edges_from vocab s pos)).
        { unfold K0. destruct (fleb dropout f0); [apply thinned_refl|]. apply thinned_filter.
          intros e He. apply edges_from_In in He as (<- & Hd & _). lia. }
        assert (Hskip : fold_left relax K0 dp = dp).
        { assert (HK0 : forall e, In e K0 -> e_src e = pos).
          { intros e He. apply (thinned_In _ HT0) in He. now apply edges_from_In in He as (-> & _). }
          clear -Er HK0. induction K0 as [|e K0 IH]; [reflexivity|]. cbn [fold_left].
          replace (relax dp e) with dp; [apply IH; intros; apply HK0; now right|].
          unfold relax. rewrite HK0 by now left. now rewrite Er. }
        exists (K0 ++ K). split; [now apply thinned_app|]. split.
        * rewrite fold_left_app, Hskip. exact HE.
        * split.
          -- intros Hd. rewrite (HD Hd). unfold K0. now rewrite Hd.
          -- intros Hd. apply Forall_app. split; [|now apply HA]. unfold K0.
             rewrite (proj1 Hd). apply Forall_forall. intros e He. apply filter_In in He as [_ He].
             now apply Nat.leb_le in He.
      + rewrite model_from_vocab. rewrite Hsuf.
        destruct (@encode_inner_relax pos (common_prefix_search (model_from vocab) (skipn pos s)) dp k)
          as (K1 & k1 & HT1 & HE1 & HD1 & HA1); [lia|exact Er|apply cps_bounds; lia|].
        rewrite cps_edges in * by lia. rewrite HE1. cbn [bind].
        destruct (IH (S pos) (fold_left relax K1 dp) k1 Hsuf' ltac:(lia)) as (K & HT & HE & HD & HA).
        { now rewrite relaxes_length. }
        exists (K1 ++ K). split; [now apply thinned_app|]. split.
        * rewrite fold_left_app. exact HE.
        * split.
          -- intros Hd. destruct (HD1 Hd) as [-> _]. now rewrite (HD Hd).
          -- intros Hd. apply Forall_app. auto.
  Qed.

  Lemma encode_cases s :
    exists K, thinned K (all_edges vocab s) /\
      (fleb dropout f0 = true -> K = all_edges vocab s) /\
      (drop_all -> Forall (fun e => e_dst e <= S (e_src e)) K) /\
      let F := fold_left relax K (init_table (length s)) in
      (dp_start (get F (length s)) = None /\
       encode (model_from vocab) rnd s dropout = Err (NoPath (length s) (length s))) \/
      (exists es, traced K (length s) (length s) es /\
       encode (model_from vocab) rnd s dropout = Ok (map e_id es)).
  Proof.
    unfold encode. fold (init_table (length s)).
    destruct (@encode_outer_relax s s 0 (init_table (length s)) 0) as (K & HT & HE & HD & HA).
    { reflexivity. } { reflexivity. } { apply init_table_length. }
    fold (all_edges vocab s) in *.
    exists K. split; [exact HT|]. split; [exact HD|]. split; [exact HA|]. cbv zeta.
    assert (HO : ordered K) by (eapply thinned_ordered; [exact HT|apply ordered_all]).
    assert (Hb : forall e, In e K -> e_dst e <= length s).
    { intros e He. apply (thinned_In _ HT) in He. apply all_edges_In in He. lia. }
    rewrite HE. cbn [bind].
    destruct (dp_start (get (fold_left relax K (init_table (length s))) (length s))) eqn:Es.
    - right. destruct (@traced_ex K (length s) HO Hb (length s)) as (es & Ht); [congruence|].
      exists es. split; [exact Ht|].
      rewrite (@backtrack_traced K (length s) HO (length s) (length s) es Ht); [|
        exact (path_pos HO (traced_path HO Hb Ht))|lia].
      cbn [bind]. now rewrite app_nil_l, rev_involutive.
    - left. split; [reflexivity|].
      rewrite (@backtrack_none K (length s) HO Hb); auto.
      destruct s as [|b s]; [|simpl; lia]. simpl in Es.
      destruct K; [|exfalso; specialize (Hb e (or_introl eq_refl)); assert (Hf := ordered_forward e HO (or_introl eq_refl)); simpl in Hb; lia].
      discriminate.
  Qed.
End Encoder.

(** ** Paths and cuts *)

Lemma Cut_snoc vocab ids s id t :
  Cut vocab ids s -> latest vocab id t -> st_value t <> [] -> Cut vocab (ids ++ [id]) (s ++ st_value t).
Proof.
  intros HC Ht Hne. induction HC as [|id' t' ids s Ht' Hne' HC IH]; simpl.
  - rewrite <- (app_nil_r (st_value t)). constructor; auto. constructor.
  - rewrite <- app_assoc. constructor; auto.
Qed.

Lemma Cut_snoc_inv vocab ids id : forall s,
  Cut vocab (ids ++ [id]) s ->
  exists s' t, s = s' ++ st_value t /\ Cut vocab ids s' /\ latest vocab id t /\ st_value t <> [].
Proof.
  induction ids as [|x ids IH]; intros s H; simpl in H; inversion H as [|id' t ids' s' Ht Hne HC]; subst.
  - inversion HC; subst. exists [], t. rewrite app_nil_r. repeat split; try apply Ht; auto.
  - destruct (IH _ HC) as (s1 & t1 & -> & HC1 & Ht1 & Hne1).
    exists (st_value t ++ s1), t1. rewrite app_assoc. repeat split; try apply Ht1; auto. now constructor.
Qed.

Lemma Cut_Spells vocab ids s : Cut vocab ids s -> Spells vocab ids s.
Proof. induction 1 as [|id t ids s Ht Hne HC IH]; constructor; auto. apply Ht. Qed.

Lemma score_of_snoc vocab ids id t :
  token_at vocab id t -> score_of vocab (ids ++ [id]) = fadd (score_of vocab ids) (st_score t).
Proof.
  intros Ht. unfold score_of. rewrite fold_left_app. simpl. unfold add_score at 1. unfold token_at in Ht. now rewrite Ht.
Qed.

Lemma path_Cut vocab s j es sc :
  path (all_edges vocab s) j es sc ->
  Cut vocab (map e_id es) (firstn j s) /\ sc = score_of vocab (map e_id es).
Proof.
  induction 1 as [|es sc e Hp [IH1 IH2] Hin].
  - simpl. split; constructor.
  - apply all_edges_In in Hin as (Hd & t & Ht & Hw & Hv).
    rewrite map_app. simpl. split.
    + replace (firstn (e_dst e) s) with (firstn (e_src e) s ++ st_value t).
      * apply Cut_snoc; auto. intros H0. rewrite H0 in Hv.
        assert (Hl : length (firstn (e_dst e - e_src e) (skipn (e_src e) s)) = 0) by now rewrite <- Hv.
        rewrite firstn_length_le in Hl; [lia|]. rewrite skipn_length. lia.
      * rewrite Hv, <- firstn_skipn_split. f_equal. lia.
    + rewrite IH2, Hw. symmetry. apply score_of_snoc. apply Ht.
Qed.

Lemma Cut_path vocab s ids : forall j, j <= length s -> Cut vocab ids (firstn j s) ->
  exists es, path (all_edges vocab s) j es (score_of vocab ids) /\ map e_id es = ids.
Proof.
  induction ids as [|id ids IH] using rev_ind; intros j Hj HC.
  - exists []. split; [|reflexivity].
    assert (Hl : length (firstn j s) = 0) by (inversion HC; reflexivity).
    rewrite firstn_length_le in Hl by assumption. subst j. constructor.
  - apply Cut_snoc_inv in HC as (s' & t & Hs & HC & Ht & Hne).
    assert (Hl : length s' + length (st_value t) = j).
    { rewrite <- app_length, <- Hs. now apply firstn_length_le. }
    assert (Hs' : s' = firstn (length s') s).
    { assert (H : firstn (length s') (firstn j s) = s').
      { rewrite Hs. rewrite firstn_app, Nat.sub_diag, firstn_all, firstn_O. apply app_nil_r. }
      rewrite firstn_firstn in H. replace (Nat.min (length s') j) with (length s') in H by lia. congruence. }
    rewrite Hs' in HC. destruct (IH (length s')) as (es & Hp & Hm); [lia|exact HC|].
    set (e := Edge (length s') j id (st_score t)).
    exists (es ++ [e]). rewrite map_app, Hm. split; [|reflexivity].
    rewrite (score_of_snoc ids (proj1 Ht)). apply (@path_snoc _ es (score_of vocab ids) e); [exact Hp|].
    apply all_edges_In. simpl. split.
    + split; [|exact Hj]. destruct (st_value t); [congruence|simpl in Hl; lia].
    + exists t. split; [exact Ht|]. split; [reflexivity|].
      replace j with (length s' + (j - length s')) in Hs by lia.
      rewrite firstn_skipn_split, <- Hs' in Hs. apply app_inv_head in Hs. now rewrite Hs.
Qed.

Lemma path_mono K L j es sc : thinned K L -> path K j es sc -> path L j es sc.
Proof. intros HT. induction 1; constructor; auto. eapply thinned_In; eauto. Qed.
