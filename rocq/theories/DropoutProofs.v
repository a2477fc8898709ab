(** The encoder under dropout: the edges it relaxes, one random number each. *)
From Coq Require Import Sorted.
From Verif Require Import Base BaseProofs F64 F64Proofs Model SpecModel SpecDropout ModelFacts DpProofs ModelProofs EncodeProofs.
Set Implicit Arguments.

Definition long (e : edge) : bool := 1 <? e_dst e - e_src e.

Section Kept.
  Variables (vocab : list scored_token) (rnd : nat -> f64) (dropout : f64).

  (** The edges left of [V] when the first random number is number [k]. *)
  Fixpoint kept_from (k : nat) (V : list edge) : list edge :=
    match V with
    | [] => []
    | e :: V' =>
        if long e then (if fltb dropout (rnd k) then e :: kept_from (S k) V' else kept_from (S k) V')
        else e :: kept_from k V'
    end.
  Definition draws (V : list edge) : nat := length (filter long V).

  Lemma kept_from_app V1 V2 : forall k, kept_from k (V1 ++ V2) = kept_from k V1 ++ kept_from (k + draws V1) V2.
  Proof.
    unfold draws. induction V1 as [|e V1 IH]; intros k; simpl; [now rewrite Nat.add_0_r|].
    destruct (long e); [|simpl; now rewrite IH].
    destruct (fltb _ _); rewrite IH; simpl; now rewrite Nat.add_succ_r.
  Qed.

  Lemma kept_from_thinned V : (forall e, In e V -> e_src e < e_dst e) -> forall k, thinned (kept_from k V) V.
  Proof.
    induction V as [|e V IH]; intros HV k; simpl; [constructor|].
    assert (H1 := HV e (or_introl eq_refl)).
    assert (H2 : forall e, In e V -> e_src e < e_dst e) by (intros; apply HV; now right).
    unfold long. destruct (Nat.ltb_spec 1 (e_dst e - e_src e)); [|constructor; now apply IH].
    destruct (fltb _ _); [constructor; now apply IH|]. apply thinned_drop; [lia|now apply IH].
  Qed.

  Lemma kept_from_In V e : forall k,
    In e (kept_from k V) <->
    In e V /\ long e = false \/ exists i, nth_error (filter long V) i = Some e /\ fltb dropout (rnd (k + i)) = true.
  Proof.
    induction V as [|x V IH]; intros k; simpl.
    - split; [intros []|]. intros [[[] _]|(i & H & _)]. destruct i; discriminate.
    - destruct (long x) eqn:El.
      + assert (Hr : In e (kept_from (S k) V) <->
          In e V /\ long e = false \/ exists i, nth_error (filter long V) i = Some e /\ fltb dropout (rnd (k + S i)) = true).
        { rewrite IH. split; (intros [H|(i & H1 & H2)]; [now left|right; exists i; split; [exact H1|]]).
          - now rewrite Nat.add_succ_r. - now rewrite Nat.add_succ_r in H2. }
        assert (Hl : In e (kept_from (S k) V) \/ x = e /\ fltb dropout (rnd k) = true <->
          (x = e \/ In e V) /\ long e = false \/
          (exists i, nth_error (x :: filter long V) i = Some e /\ fltb dropout (rnd (k + i)) = true)).
        { rewrite Hr. split.
          - intros [[[H1 H2]|(i & H1 & H2)]|[-> H]].
            + left. auto.
            + right. exists (S i). auto.
            + right. exists 0. rewrite Nat.add_0_r. auto.
          - intros [[[->|H1] H2]|([|i] & H1 & H2)].
            + congruence.
            + left. auto.
            + simpl in H1. rewrite Nat.add_0_r in H2. right. split; congruence.
            + left. right. exists i. auto. }
        rewrite <- Hl. destruct (fltb dropout (rnd k)); simpl; [tauto|]. intuition discriminate.
      + simpl. rewrite IH. split.
        * intros [->|[[H1 H2]|H]]; [left; auto|left; auto|now right].
        * intros [[[->|H1] H2]|H]; [now left|right; left; auto|right; now right].
  Qed.

  Hypothesis Hdrop : fleb dropout f0 = false.

  Lemma encode_inner_kept pos matches : forall dp k,
    pos < length dp -> is_none (dp_start (get dp pos)) = false ->
    Forall (fun m => 0 < N.to_nat (snd m) /\ pos + N.to_nat (snd m) < length dp /\
                     N.to_nat (fst m) < length vocab) matches ->
    let V := map (to_edge vocab pos) matches in
    encode_inner vocab rnd dropout pos matches dp k = Ok (fold_left relax (kept_from k V) dp, k + draws V).
  Proof.
    cbv zeta. unfold draws. induction matches as [|[id len32] ms IH]; intros dp k Hpos Hr Hall.
    - simpl. now rewrite Nat.add_0_r.
    - inversion Hall as [|? ? Hm Hms]; subst. simpl in Hm. destruct Hm as (H0 & Hlen & Hid).
      cbn [encode_inner map kept_from filter]. cbv zeta. set (len := N.to_nat len32) in *.
      rewrite !index_nth with (d := dflt) by assumption. fold (get dp (pos + len)) (get dp pos). cbn [bind].
      destruct (nth_error vocab (N.to_nat id)) as [t|] eqn:Et; [|apply nth_error_None in Et; lia].
      unfold index at 1. rewrite Et. cbn [bind].
      set (e := to_edge vocab pos (id, len32)).
      assert (He : e = Edge pos (pos + len) id (st_score t)) by (unfold e, to_edge; simpl; now rewrite Et).
      assert (Hgr : get (relax dp e) pos = get dp pos).
      { rewrite get_relax; rewrite He; simpl; [|exact Hlen].
        destruct (Nat.eqb_spec pos (pos + len)); [lia|reflexivity]. }
      assert (Hms1 : Forall (fun m => 0 < N.to_nat (snd m) /\ pos + N.to_nat (snd m) < length (relax dp e) /\
                     N.to_nat (fst m) < length vocab) ms) by (now rewrite relax_length).
      assert (Hstep : forall k1, (if is_none (dp_start (get dp (pos + len))) ||
              fltb (dp_score (get dp (pos + len))) (fadd (dp_score (get dp pos)) (st_score t))
            then dp' <- store dp (pos + len) (DP id (fadd (dp_score (get dp pos)) (st_score t)) (Some pos));;
                 encode_inner vocab rnd dropout pos ms dp' k1
            else encode_inner vocab rnd dropout pos ms dp k1)
            = encode_inner vocab rnd dropout pos ms (relax dp e) k1).
      { intros k1. unfold relax. rewrite He. simpl. rewrite Hr. cbv zeta.
        destruct (_ || _); [|reflexivity]. rewrite store_ok by assumption. reflexivity. }
      assert (Hl : long e = (1 <? len)). { unfold long. rewrite He. simpl. f_equal. lia. }
      unfold dropout_pass. rewrite Hdrop, Hl.
      destruct (Nat.leb_spec len 1) as [Hle|Hgt].
      + destruct (Nat.ltb_spec 1 len) as [|_]; [lia|]. cbn [andb fold_left]. rewrite Hstep. apply IH.
        { now rewrite relax_length. } { now rewrite Hgr. } { exact Hms1. }
      + destruct (Nat.ltb_spec 1 len) as [_|]; [|lia]. cbn [length]. rewrite Nat.add_succ_r.
        destruct (fltb dropout (rnd k)); cbn [andb fold_left].
        * rewrite Hstep. rewrite IH; [reflexivity| | |]. { now rewrite relax_length. } { now rewrite Hgr. } { exact Hms1. }
        * now rewrite IH.
  Qed.

  Hypothesis Hfits : fits vocab.

  Lemma get_relaxes_before E j : forall dp,
    (forall e, In e E -> j < e_dst e /\ e_dst e < length dp) -> get (fold_left relax E dp) j = get dp j.
  Proof.
    induction E as [|e E IH]; intros dp HE; [reflexivity|]. cbn [fold_left].
    destruct (HE e (or_introl eq_refl)) as [H1 H2].
    rewrite IH.
    - rewrite get_relax by assumption. destruct (Nat.eqb_spec j (e_dst e)); [lia|reflexivity].
    - intros e' He'. rewrite relax_length. apply HE. now right.
  Qed.

  (** The edges that are considered: those that start where the table has an entry. *)
  Definition visited (s : bytes) (F : list dp_node) (pos n : nat) : list edge :=
    flat_map (fun p => if is_none (dp_start (get F p)) then [] else edges_from vocab s p) (seq pos n).

  Lemma encode_outer_kept s suffix : forall pos dp k,
    suffix = skipn pos s -> pos + length suffix = length s -> length dp = S (length s) ->
    exists V, let F := fold_left relax (kept_from k V) dp in
      encode_outer (model_from vocab) rnd dropout suffix pos dp k = Ok F /\
      V = visited s F pos (length suffix).
  Proof.
    induction suffix as [|b suffix IH]; intros pos dp k Hsuf Hlen Hdp.
    - exists []. split; reflexivity.
    - cbn [encode_outer length]. simpl in Hlen.
      assert (Hsuf' : suffix = skipn (S pos) s).
      { replace (S pos) with (pos + 1) by lia. rewrite <- skipn_skipn', <- Hsuf. reflexivity. }
      rewrite index_nth with (d := dflt) by lia. fold (get dp pos). cbn [bind].
      assert (Hv : forall F n e, In e (visited s F (S pos) n) -> S pos + n = length s ->
                pos < e_src e < e_dst e /\ e_dst e <= length s).
      { intros F n e He Hn. unfold visited in He. apply in_flat_map in He as (p & Hp & He). apply in_seq in Hp.
        destruct (is_none _); [easy|]. apply edges_from_In in He as (<- & Hd & _). lia. }
      assert (Hk : forall F n k' e, In e (kept_from k' (visited s F (S pos) n)) -> S pos + n = length s ->
                pos < e_src e < e_dst e /\ e_dst e <= length s).
      { intros F n k' e He Hn. apply (Hv F n e); [|exact Hn].
        eapply thinned_In; [|exact He]. apply kept_from_thinned. intros e' He'. apply Hv in He'; [lia|exact Hn]. }
      destruct (is_none (dp_start (get dp pos))) eqn:Er.
      + destruct (IH (S pos) dp k Hsuf' ltac:(lia) Hdp) as (V & HE & HV).
        exists V. cbv zeta in *. split; [exact HE|]. unfold visited. cbn [seq flat_map].
        rewrite get_relaxes_before, Er; [exact HV|].
        intros e He. rewrite HV in He. apply Hk in He; lia.
      + rewrite model_from_vocab. rewrite Hsuf.
        rewrite encode_inner_kept; [|lia|exact Er|apply cps_bounds; try lia; assumption].
        cbv zeta. rewrite cps_edges by (assumption || lia). cbn [bind].
        set (E := edges_from vocab s pos). set (dp1 := fold_left relax (kept_from k E) dp).
        destruct (IH (S pos) dp1 (k + draws E) Hsuf' ltac:(lia)) as (V & HE & HV).
        { unfold dp1. now rewrite relaxes_length. }
        exists (E ++ V). cbv zeta in *. rewrite kept_from_app, fold_left_app. fold dp1.
        split; [exact HE|]. unfold visited. cbn [seq flat_map].
        rewrite get_relaxes_before.
        * unfold dp1. rewrite get_relaxes_before.
          -- rewrite Er. fold E. f_equal. exact HV.
          -- intros e He. assert (He' : In e E).
             { eapply thinned_In; [|exact He]. apply kept_from_thinned. intros e' Hin.
               apply edges_from_In in Hin. lia. }
             apply edges_from_In in He'. lia.
        * intros e He. unfold dp1. rewrite relaxes_length. rewrite HV in He. apply Hk in He; lia.
  Qed.

  (** ** The list of random numbers *)

  Definition occ (e : edge) : nat * nat := (e_src e, e_dst e - e_src e).
  Definition drawn_of (V : list edge) : list (nat * nat) := map occ (filter long V).

  Lemma StronglySorted_filter {A} (R : A -> A -> Prop) f l : StronglySorted R l -> StronglySorted R (filter f l).
  Proof.
    induction 1 as [|x l H IH HF]; simpl; [constructor|]. destruct (f x); [|exact IH]. constructor; [exact IH|].
    apply Forall_forall. intros y Hy. apply filter_In in Hy as [Hy _]. rewrite Forall_forall in HF. auto.
  Qed.

  Lemma StronglySorted_app {A} (R : A -> A -> Prop) l1 l2 :
    StronglySorted R l1 -> StronglySorted R l2 -> (forall x y, In x l1 -> In y l2 -> R x y) ->
    StronglySorted R (l1 ++ l2).
  Proof.
    intros H1 H2 H. induction H1 as [|x l H1 IH HF]; simpl; [exact H2|]. constructor.
    - apply IH. intros; apply H; [now right|assumption].
    - apply Forall_app. split; [exact HF|]. apply Forall_forall. intros y Hy. apply H; [now left|exact Hy].
  Qed.

  Definition ebefore (a b : edge) : Prop := before (occ a) (occ b).

  Lemma edges_from_sorted s pos : StronglySorted ebefore (edges_from vocab s pos).
  Proof.
    unfold edges_from. generalize (length s - pos). intros n. generalize 1 at 1. revert n.
    induction n as [|n IH]; intros a; simpl; [constructor|]. apply StronglySorted_app; [|apply IH|].
    - destruct (last_from _ _ _); repeat constructor.
    - intros x y Hx Hy. apply in_flat_map in Hy as (l & Hl & Hy). apply in_seq in Hl.
      destruct (last_from 0 vocab (firstn a (skipn pos s))); [|easy]. destruct Hx as [<-|[]].
      destruct (last_from _ _ _); [|easy]. destruct Hy as [<-|[]].
      right. simpl. lia.
  Qed.

  Lemma visited_sorted s F n : forall pos, StronglySorted ebefore (visited s F pos n).
  Proof.
    unfold visited. induction n as [|n IH]; intros pos; simpl; [constructor|].
    apply StronglySorted_app; [|apply IH|].
    - destruct (is_none _); [constructor|]. apply edges_from_sorted.
    - intros x y Hx Hy. apply in_flat_map in Hy as (l & Hl & Hy). apply in_seq in Hl.
      destruct (is_none (dp_start (get F pos))); [easy|]. apply edges_from_In in Hx as (Hx & _).
      destruct (is_none _); [easy|]. apply edges_from_In in Hy as (Hy & _). left. simpl. lia.
  Qed.

  Lemma latest_unique id t id' t' : latest vocab id t -> latest vocab id' t' -> st_value t = st_value t' -> id = id' /\ t = t'.
  Proof.
    intros [H1 H2] [H3 H4] Hv. destruct (N.lt_trichotomy id id') as [H|[H|H]].
    - exfalso. now apply (H2 _ _ H H3).
    - subst. split; [reflexivity|]. unfold token_at in *. congruence.
    - exfalso. now apply (H4 _ _ H H1).
  Qed.

  Lemma edge_unique s e e' : In e (all_edges vocab s) -> In e' (all_edges vocab s) -> occ e = occ e' -> e = e'.
  Proof.
    intros H H' Ho. apply all_edges_In in H as (Hd & t & Ht & Hw & Hv). apply all_edges_In in H' as (Hd' & t' & Ht' & Hw' & Hv').
    unfold occ in Ho. injection Ho as Hs Hl. rewrite Hl, Hs in Hv. rewrite <- Hv' in Hv.
    destruct (latest_unique Ht Ht' Hv) as [Hi ->].
    destruct e as [a b c d], e' as [a' b' c' d']; simpl in *. f_equal; try congruence. lia.
  Qed.

  (** ** The encoder *)

  Lemma visited_ordered s G n : ordered (visited s G 0 n).
  Proof.
    unfold visited. induction n as [|k IH]; [constructor|].
    rewrite seq_S, flat_map_app. simpl. rewrite app_nil_r. apply ordered_app_one with (pos := k); [exact IH| |].
    - intros e He. apply in_flat_map in He as (p & Hp & He). apply in_seq in Hp.
      destruct (is_none _); [easy|]. apply edges_from_In in He as (<- & _). lia.
    - intros e He. destruct (is_none _); [easy|]. apply edges_from_In in He as (-> & Hd & _). lia.
  Qed.

  Lemma CutKept_snoc (keep : nat -> nat -> Prop) pos ids x id t :
    CutKept vocab keep pos ids x -> latest vocab id t -> st_value t <> [] ->
    keep (pos + length x) (length (st_value t)) -> CutKept vocab keep pos (ids ++ [id]) (x ++ st_value t).
  Proof.
    intros H Ht Hne. induction H as [pos|pos id' t' ids x Ht' Hne' Hk H IH]; intros Hkt; simpl.
    - rewrite <- (app_nil_r (st_value t)). constructor; auto; [|constructor].
      simpl in Hkt. now rewrite Nat.add_0_r in Hkt.
    - rewrite <- app_assoc. constructor; auto. apply IH. rewrite app_length in Hkt. now rewrite <- Nat.add_assoc.
  Qed.

  Lemma CutKept_snoc_inv (keep : nat -> nat -> Prop) ids id : forall pos x,
    CutKept vocab keep pos (ids ++ [id]) x ->
    exists x' t, x = x' ++ st_value t /\ CutKept vocab keep pos ids x' /\ latest vocab id t /\ st_value t <> [] /\
      keep (pos + length x') (length (st_value t)).
  Proof.
    induction ids as [|y ids IH]; intros pos x H; simpl in H; inversion H as [|? id' t ids' s' Ht Hne Hk HC]; subst.
    - inversion HC; subst. exists [], t. rewrite app_nil_r, Nat.add_0_r. repeat split; try apply Ht; auto. constructor.
    - destruct (IH _ _ HC) as (s1 & t1 & -> & HC1 & Ht1 & Hne1 & Hk1).
      exists (st_value t ++ s1), t1. rewrite app_assoc. split; [reflexivity|]. split; [now constructor|].
      split; [exact Ht1|]. split; [exact Hne1|]. now rewrite app_length, Nat.add_assoc.
  Qed.

  Section Run.
    Variables (s : bytes) (V : list edge).
    Let K := kept_from 0 V.
    Let F := fold_left relax K (init_table (length s)).
    Let drawn := drawn_of V.
    Let keep := kept rnd dropout drawn.
    Hypothesis HV : V = visited s F 0 (length s).

    Lemma V_In e : In e V <-> In e (all_edges vocab s) /\ dp_start (get F (e_src e)) <> None.
    Proof.
      rewrite HV at 1. unfold visited, all_edges. rewrite !in_flat_map. split.
      - intros (p & Hp & He). destruct (dp_start (get F p)) eqn:E; simpl in He; [|easy].
        split; [exists p; auto|]. apply edges_from_In in He as (<- & _). congruence.
      - intros [(p & Hp & He) Hn]. exists p. split; [exact Hp|].
        assert (Hs : e_src e = p) by (apply edges_from_In in He; tauto). rewrite Hs in Hn.
        destruct (dp_start (get F p)); [exact He|congruence].
    Qed.

    Lemma V_forward e : In e V -> e_src e < e_dst e.
    Proof. intros H. apply V_In in H as [H _]. apply all_edges_In in H. lia. Qed.

    Lemma K_thin : thinned K V.
    Proof. apply kept_from_thinned. apply V_forward. Qed.

    Lemma K_In e : In e K <-> In e V /\ keep (e_src e) (e_dst e - e_src e).
    Proof.
      unfold K. rewrite kept_from_In. unfold keep, kept, drawn, drawn_of. split.
      - intros [[H1 H2]|(i & H1 & H2)].
        + split; [exact H1|]. left. apply V_forward in H1. unfold long in H2. apply Nat.ltb_ge in H2. lia.
        + split; [apply nth_error_In in H1; now apply filter_In in H1|]. right. exists i.
          rewrite nth_error_map, H1. split; [reflexivity|exact H2].
      - intros [H1 [H2|(i & H2 & H3)]].
        + left. split; [exact H1|]. unfold long. rewrite H2. reflexivity.
        + right. exists i. split; [|exact H3]. rewrite nth_error_map in H2.
          destruct (nth_error (filter long V) i) as [e'|] eqn:E; [|discriminate]. simpl in H2. injection H2 as H2.
          f_equal. apply nth_error_In in E. apply filter_In in E as [E _]. apply V_In in E as [E _]. apply V_In in H1 as [H1 _].
          eapply edge_unique; eauto. unfold occ. congruence.
    Qed.

    Lemma V_ordered : ordered V.
    Proof. rewrite HV. apply visited_ordered. Qed.

    Lemma K_ordered : ordered K.
    Proof. eapply thinned_ordered; [exact K_thin|exact V_ordered]. Qed.

    Lemma K_bound e : In e K -> e_dst e <= length s.
    Proof. intros H. apply K_In in H as [H _]. apply V_In in H as [H _]. apply all_edges_In in H. lia. Qed.

    Lemma path_CutKept j es sc :
      path K j es sc -> CutKept vocab keep 0 (map e_id es) (firstn j s) /\ sc = score_of vocab (map e_id es).
    Proof.
      induction 1 as [|es sc e Hp [IH1 IH2] Hin].
      - simpl. split; constructor.
      - apply K_In in Hin as [Hin Hk]. apply V_In in Hin as [Hin _].
        apply all_edges_In in Hin as (Hd & t & Ht & Hw & Hv).
        assert (Hl : length (st_value t) = e_dst e - e_src e).
        { rewrite Hv. apply firstn_length_le. rewrite skipn_length. lia. }
        rewrite map_app. simpl. split.
        + replace (firstn (e_dst e) s) with (firstn (e_src e) s ++ st_value t).
          * apply CutKept_snoc; auto.
            -- intros H0. rewrite H0 in Hl. simpl in Hl. lia.
            -- rewrite firstn_length_le by lia. now rewrite Hl.
          * rewrite Hv, <- firstn_skipn_split. f_equal. lia.
        + rewrite IH2, Hw. symmetry. apply score_of_snoc. apply Ht.
    Qed.

    Lemma CutKept_path ids : forall j, j <= length s -> CutKept vocab keep 0 ids (firstn j s) ->
      exists es, path K j es (score_of vocab ids) /\ map e_id es = ids.
    Proof.
      induction ids as [|id ids IH] using rev_ind; intros j Hj HC.
      - exists []. split; [|reflexivity].
        assert (Hl : length (firstn j s) = 0) by (inversion HC; reflexivity).
        rewrite firstn_length_le in Hl by assumption. subst j. constructor.
      - apply CutKept_snoc_inv in HC as (s' & t & Hs & HC & Ht & Hne & Hk).
        assert (Hl : length s' + length (st_value t) = j).
        { rewrite <- app_length, <- Hs. now apply firstn_length_le. }
        assert (Hs' : s' = firstn (length s') s).
        { assert (H : firstn (length s') (firstn j s) = s').
          { rewrite Hs. rewrite firstn_app, Nat.sub_diag, firstn_all, firstn_O. apply app_nil_r. }
          rewrite firstn_firstn in H. replace (Nat.min (length s') j) with (length s') in H by lia. congruence. }
        rewrite Hs' in HC. destruct (IH (length s')) as (es & Hp & Hm); [lia|exact HC|].
        set (e := Edge (length s') j id (st_score t)).
        exists (es ++ [e]). rewrite map_app, Hm. split; [|reflexivity].
        rewrite (score_of_snoc ids (proj1 Ht)). apply (@path_snoc _ es (score_of vocab ids) e); [exact Hp|].
        apply K_In. simpl. split.
        2: { replace (j - length s') with (length (st_value t)) by lia. exact Hk. }
        apply V_In. split.
        + apply all_edges_In. simpl. split.
          * split; [|exact Hj]. destruct (st_value t); [congruence|simpl in Hl; lia].
          * exists t. split; [exact Ht|]. split; [reflexivity|].
            replace j with (length s' + (j - length s')) in Hs by lia.
            rewrite firstn_skipn_split, <- Hs' in Hs. apply app_inv_head in Hs. now rewrite Hs.
        + simpl. eapply table_none_path; [exact K_ordered|exact K_bound|exact Hp].
    Qed.

    Lemma reached pos : pos <= length s ->
      dp_start (get F pos) <> None <-> exists ids, CutKept vocab keep 0 ids (firstn pos s).
    Proof.
      intros Hp. split.
      - intros H. destruct (@traced_ex K (length s) K_ordered K_bound pos H) as (es & Ht).
        apply (traced_path K_ordered K_bound) in Ht. apply path_CutKept in Ht as [Ht _]. eauto.
      - intros (ids & H). destruct (CutKept_path Hp H) as (es & H1 & _).
        eapply table_none_path; [exact K_ordered|exact K_bound|exact H1].
    Qed.

    Lemma latest_exists t : In t vocab -> exists id t', latest vocab id t' /\ st_value t' = st_value t.
    Proof.
      intros Hin. destruct (last_from 0 vocab (st_value t)) as [i|] eqn:E.
      - apply last_from_latest in E as (t' & H1 & H2). eauto.
      - exfalso. revert E. generalize 0 at 1. clear -Hin. induction vocab as [|x v IH]; intros k E; [easy|].
        simpl in E. destruct (last_from (S k) v (st_value t)) eqn:E1; [discriminate|].
        destruct Hin as [->|Hin]; [|now apply (IH Hin (S k))].
        rewrite bytes_eqb_refl in E. discriminate.
    Qed.

    Lemma draws_ok : draws_for vocab s rnd dropout drawn.
    Proof.
      split.
      - unfold drawn, drawn_of.
        assert (H : StronglySorted ebefore (filter long V)).
        { apply StronglySorted_filter. rewrite HV. apply visited_sorted. }
        revert H. generalize (filter long V). intros L H. induction H as [|x l H IH HF]; simpl; [constructor|]. constructor; [exact IH|].
        apply Forall_map. exact HF.
      - intros pos len. fold keep. unfold drawn, drawn_of. rewrite in_map_iff. split.
        + intros (e & Ho & He). apply filter_In in He as [He Hl]. apply V_In in He as [He Hn].
          unfold occ in Ho. injection Ho as Hs Hd. unfold long in Hl. apply Nat.ltb_lt in Hl.
          apply all_edges_In in He as (Hb & t & Ht & _ & Hv). split; [lia|]. split.
          * split; [lia|]. split; [lia|]. exists t. split; [eapply token_at_In; apply Ht|]. now rewrite Hv, Hd, Hs.
          * apply reached; [lia|]. now rewrite <- Hs.
        + intros (H2 & (_ & Hb & t & Hin & Hv) & Hr). apply reached in Hr; [|lia].
          destruct (latest_exists _ Hin) as (id & t' & Ht' & Hv').
          exists (Edge pos (pos + len) id (st_score t')). split; [unfold occ; simpl; f_equal; lia|].
          apply filter_In. split.
          * apply V_In. split; [|exact Hr]. apply all_edges_In. simpl. split; [lia|]. exists t'.
            split; [exact Ht'|]. split; [reflexivity|]. rewrite Hv', Hv. f_equal. lia.
          * unfold long. simpl. apply Nat.ltb_lt. lia.
    Qed.
  End Run.

  Lemma encode_draws s : exists drawn, draws_for vocab s rnd dropout drawn /\
    ((~ (exists ids, CutKept vocab (kept rnd dropout drawn) 0 ids s) /\
      encode (model_from vocab) rnd s dropout = Err (NoPath (length s) (length s))) \/
     exists ids, encode (model_from vocab) rnd s dropout = Ok ids /\
      CutKept vocab (kept rnd dropout drawn) 0 ids s /\
      (finite_scores vocab -> forall ids', CutKept vocab (kept rnd dropout drawn) 0 ids' s ->
        fleb (score_of vocab ids') (score_of vocab ids) = true)).
  Proof.
    destruct (@encode_outer_kept s s 0 (init_table (length s)) 0) as (V & HE & HV).
    { reflexivity. } { reflexivity. } { apply init_table_length. }
    exists (drawn_of V). split; [exact (draws_ok s HV)|].
    unfold encode. fold (init_table (length s)). cbv zeta in *. rewrite HE. cbn [bind].
    set (K := kept_from 0 V) in *. set (F := fold_left relax K (init_table (length s))) in *.
    assert (HO : ordered K) by exact (K_ordered s HV).
    assert (Hb : forall e, In e K -> e_dst e <= length s) by exact (K_bound s HV).
    destruct (dp_start (get F (length s))) eqn:Es.
    - right. destruct (@traced_ex K (length s) HO Hb (length s)) as (es & Ht); [fold F; congruence|].
      assert (Hp := traced_path HO Hb Ht).
      exists (map e_id es). split; [|split].
      + unfold F. rewrite (@backtrack_traced K (length s) HO (length s) (length s) es Ht); [| |lia].
        2: exact (path_pos HO Hp).
        cbn [bind]. now rewrite app_nil_l, rev_involutive.
      + destruct (path_CutKept s HV Hp) as [H _]. now rewrite firstn_all in H.
      + intros Hfin ids' HC. destruct (path_CutKept s HV Hp) as [_ <-].
        rewrite <- (firstn_all s) in HC. destruct (CutKept_path s HV (le_n _) HC) as (es' & Hp' & _).
        apply (@table_optimal K (length s) HO Hb) with (es := es'); [|exact Hp'].
        intros e Hin. apply (K_In s HV) in Hin as [Hin _]. apply (V_In s HV) in Hin as [Hin _].
        apply all_edges_In in Hin as (_ & t & [Ht' _] & -> & _).
        unfold finite_scores in Hfin. rewrite Forall_forall in Hfin. apply Hfin. eapply token_at_In; eauto.
    - left. split.
      + intros (ids & HC). rewrite <- (firstn_all s) in HC at 1.
        apply (reached s HV (le_n _)); [eauto|exact Es].
      + unfold F. rewrite (@backtrack_none K (length s) HO Hb); auto.
        destruct s as [|b s']; [|simpl; lia].
        exfalso. unfold F in Es. change (length (@nil Byte.byte)) with 0 in *. rewrite (@table_0 K 0 HO Hb) in Es. discriminate.
  Qed.
End Kept.

(** ** There is only one such list *)

Lemma before_irrefl a : ~ before a a.
Proof. unfold before. lia. Qed.

Lemma sorted_same (D1 D2 : list (nat * nat)) :
  StronglySorted before D1 -> StronglySorted before D2 -> (forall x, In x D1 <-> In x D2) -> D1 = D2.
Proof.
  intros H1. revert D2. induction H1 as [|x D1 H1 IH HF1]; intros D2 H2 H.
  - destruct D2 as [|y D2]; [reflexivity|]. destruct (proj2 (H y) (or_introl eq_refl)).
  - inversion H2 as [|y D2' H2' HF2]; subst; [destruct (proj1 (H x) (or_introl eq_refl))|].
    rewrite Forall_forall in HF1, HF2.
    assert (x = y).
    { destruct (proj1 (H x) (or_introl eq_refl)) as [|Hx]; [congruence|].
      destruct (proj2 (H y) (or_introl eq_refl)) as [|Hy]; [congruence|].
      apply HF1 in Hy. apply HF2 in Hx. unfold before in *. lia. }
    subst y. f_equal. apply IH; [exact H2'|]. intros z. split; intros Hz.
    + destruct (proj1 (H z) (or_intror Hz)) as [->|]; [|assumption]. destruct (before_irrefl (HF1 _ Hz)).
    + destruct (proj2 (H z) (or_intror Hz)) as [->|]; [|assumption]. destruct (before_irrefl (HF2 _ Hz)).
Qed.

Definition upto (p : nat) (D : list (nat * nat)) := filter (fun x => fst x <? p) D.

Lemma sorted_upto p D : StronglySorted before D -> D = upto p D ++ filter (fun x => p <=? fst x) D.
Proof.
  unfold upto. induction 1 as [|x D H IH HF]; [reflexivity|]. simpl. rewrite Forall_forall in HF.
  destruct (Nat.ltb_spec (fst x) p), (Nat.leb_spec p (fst x)); try lia; simpl; [now f_equal|].
  assert (Hn : filter (fun x => fst x <? p) D = []).
  { destruct (filter _ D) as [|y L] eqn:E; [reflexivity|]. assert (Hy : In y (y :: L)) by now left.
    rewrite <- E in Hy. apply filter_In in Hy as [Hy Hp]. apply HF in Hy. apply Nat.ltb_lt in Hp. unfold before in Hy. lia. }
  rewrite Hn in *. simpl in *. now f_equal.
Qed.

Lemma nth_upto p D i q len : StronglySorted before D -> q < p ->
  nth_error D i = Some (q, len) <-> nth_error (upto p D) i = Some (q, len).
Proof.
  intros HD Hq. rewrite (sorted_upto p HD) at 1. set (A := upto p D).
  destruct (Nat.lt_ge_cases i (length A)) as [Hi|Hi].
  - now rewrite nth_error_app1.
  - rewrite nth_error_app2 by assumption. rewrite (proj2 (nth_error_None A i) Hi). split; [|discriminate].
    intros H. apply nth_error_In in H. apply filter_In in H as [_ H]. simpl in H. apply Nat.leb_le in H. lia.
Qed.

Section Unique.
  Variables (vocab : list scored_token) (s : bytes) (rnd : nat -> f64) (dropout : f64).

  Lemma kept_upto D1 D2 p q len : StronglySorted before D1 -> StronglySorted before D2 ->
    upto p D1 = upto p D2 -> q < p -> kept rnd dropout D1 q len -> kept rnd dropout D2 q len.
  Proof.
    intros H1 H2 HU Hq [H|(i & Hi & Hr)]; [now left|]. right. exists i. split; [|exact Hr].
    apply (nth_upto i len H2 Hq). rewrite <- HU. now apply (nth_upto i len H1 Hq).
  Qed.

  Lemma CutKept_mono (k1 k2 : nat -> nat -> Prop) p : (forall q len, q < p -> k1 q len -> k2 q len) ->
    forall pos ids x, CutKept vocab k1 pos ids x -> pos + length x <= p -> CutKept vocab k2 pos ids x.
  Proof.
    intros Hk pos ids x H. induction H as [pos|pos id t ids x Ht Hne Hkt H IH]; intros Hp; [constructor|].
    rewrite app_length in Hp. assert (length (st_value t) <> 0) by (destruct (st_value t); [congruence|discriminate]).
    constructor; auto; [apply Hk; [lia|exact Hkt]|apply IH; lia].
  Qed.

  Lemma draws_upto D1 D2 : draws_for vocab s rnd dropout D1 -> draws_for vocab s rnd dropout D2 ->
    forall p, upto p D1 = upto p D2.
  Proof.
    intros [S1 M1] [S2 M2]. induction p as [|p IH].
    - assert (H0 : forall D, upto 0 D = []). { unfold upto. induction D as [|x D IHD]; [reflexivity|exact IHD]. }
      now rewrite !H0.
    - assert (Hstep : forall Da Db, StronglySorted before Da -> StronglySorted before Db -> upto p Da = upto p Db ->
        (forall pos len, In (pos, len) Da -> 2 <= len /\ occurs vocab s pos len /\
           exists ids, CutKept vocab (kept rnd dropout Da) 0 ids (firstn pos s)) ->
        (forall pos len, 2 <= len /\ occurs vocab s pos len /\
           (exists ids, CutKept vocab (kept rnd dropout Db) 0 ids (firstn pos s)) -> In (pos, len) Db) ->
        forall x, In x (upto (S p) Da) -> In x (upto (S p) Db)).
      { intros Da Db Sa Sb HU Ma Mb [q len] Hx. unfold upto in *. apply filter_In in Hx as [Hx Hq]. apply filter_In. split; [|exact Hq].
        simpl in Hq. apply Nat.ltb_lt in Hq. apply Ma in Hx as (H2 & Ho & ids & HC). apply Mb. split; [exact H2|]. split; [exact Ho|].
        exists ids. eapply CutKept_mono with (p := p); [|exact HC|].
        - intros q' len' Hq'. exact (kept_upto Sa Sb HU Hq').
        - simpl. rewrite firstn_length. lia. }
      apply sorted_same; [now apply StronglySorted_filter|now apply StronglySorted_filter|].
      intros x. split; apply Hstep; auto; intros; [now apply M1|now apply M2|now apply M2|now apply M1].
  Qed.

  Lemma draws_unique D1 D2 : draws_for vocab s rnd dropout D1 -> draws_for vocab s rnd dropout D2 -> D1 = D2.
  Proof.
    intros H1 H2. assert (Hall : forall D, draws_for vocab s rnd dropout D -> upto (S (length s)) D = D).
    { intros D [_ M]. unfold upto. assert (HD : forall x, In x D -> (fst x <? S (length s)) = true).
      { intros [q len] Hx. apply M in Hx as (_ & (_ & Hb & _) & _). apply Nat.ltb_lt. simpl. lia. }
      clear M. induction D as [|x D IH]; [reflexivity|]. simpl. change (fst x <=? length s) with (fst x <? S (length s)).
      rewrite HD by now left. f_equal. apply IH. intros; apply HD; now right. }
    rewrite <- (Hall _ H1), <- (Hall _ H2). now apply draws_upto.
  Qed.
End Unique.
