(** The dynamic programme of [Model::encode], abstracted to relaxing a list of
    edges, and what its table holds. *)
From Verif Require Import Base BaseProofs F64 F64Proofs Model.
Set Implicit Arguments.

Record edge := Edge { e_src : nat; e_dst : nat; e_id : N; e_w : f64 }.

Definition dflt : dp_node := DP 0%N f0 None.
Definition get (dp : list dp_node) (i : nat) : dp_node := nth i dp dflt.

(** Choosing between the current entry of a position and an edge into it. *)
Definition pick (g : nat -> dp_node) (cur : dp_node) (e : edge) : dp_node :=
  if is_none (dp_start (g (e_src e))) then cur
  else
    let score := fadd (dp_score (g (e_src e))) (e_w e) in
    if is_none (dp_start cur) || fltb (dp_score cur) score
    then DP (e_id e) score (Some (e_src e)) else cur.

Definition relax (dp : list dp_node) (e : edge) : list dp_node :=
  if is_none (dp_start (get dp (e_src e))) then dp
  else
    let score := fadd (dp_score (get dp (e_src e))) (e_w e) in
    if is_none (dp_start (get dp (e_dst e))) || fltb (dp_score (get dp (e_dst e))) score
    then update dp (e_dst e) (DP (e_id e) score (Some (e_src e))) else dp.

Lemma relax_length dp e : length (relax dp e) = length dp.
Proof.
  unfold relax. destruct (is_none _); [reflexivity|]. simpl.
  destruct (_ || _); [apply length_update|reflexivity].
Qed.

Lemma relaxes_length E dp : length (fold_left relax E dp) = length dp.
Proof. revert dp; induction E as [|e E IH]; intros dp; simpl; [reflexivity|]. now rewrite IH, relax_length. Qed.

Lemma get_relax dp e j :
  e_dst e < length dp ->
  get (relax dp e) j = if j =? e_dst e then pick (get dp) (get dp j) e else get dp j.
Proof.
  intros Hl. unfold relax, pick.
  destruct (is_none (dp_start (get dp (e_src e)))) eqn:Es.
  - now destruct (j =? e_dst e).
  - cbv zeta. destruct (Nat.eqb_spec j (e_dst e)) as [->|Hn].
    + destruct (_ || _); [|reflexivity]. unfold get. rewrite nth_update by assumption.
      now rewrite Nat.eqb_refl.
    + destruct (_ || _); [|reflexivity]. unfold get. rewrite nth_update by assumption.
      now apply Nat.eqb_neq in Hn as ->.
Qed.

(** Edges come in order of their source, and go forward. *)
Inductive ordered : list edge -> Prop :=
| ordered_nil : ordered []
| ordered_snoc E e :
    ordered E -> (forall e', In e' E -> e_src e' <= e_src e) -> e_src e < e_dst e ->
    ordered (E ++ [e]).

Lemma ordered_forward E e : ordered E -> In e E -> e_src e < e_dst e.
Proof.
  intros H. revert e. induction H as [|E e' H IH Hle Hlt]; intros e Hin; [easy|].
  apply in_app_iff in Hin as [Hin|[<-|[]]]; auto.
Qed.

Lemma pick_ext g g' cur e : g (e_src e) = g' (e_src e) -> pick g cur e = pick g' cur e.
Proof. intros H. unfold pick. now rewrite H. Qed.

Lemma fold_pick_ext g g' E : forall cur,
  (forall e, In e E -> g (e_src e) = g' (e_src e)) ->
  fold_left (pick g) E cur = fold_left (pick g') E cur.
Proof.
  induction E as [|e E IH]; intros cur H; simpl; [reflexivity|].
  rewrite (@pick_ext g g') by (apply H; now left). apply IH. intros; apply H; now right.
Qed.

Definition into (j : nat) (E : list edge) : list edge := filter (fun e => e_dst e =? j) E.

Lemma into_In j E e : In e (into j E) <-> In e E /\ e_dst e = j.
Proof. unfold into. rewrite filter_In, Nat.eqb_eq. reflexivity. Qed.

(** The table is a fixed point: every entry is the fold of [pick] over the
    edges into it, reading the final entries of their sources. *)
Lemma relaxes_fix E dp0 :
  ordered E -> (forall e, In e E -> e_dst e < length dp0) ->
  forall j, get (fold_left relax E dp0) j =
            fold_left (pick (get (fold_left relax E dp0))) (into j E) (get dp0 j).
Proof.
  intros HO. induction HO as [|E e HO IH Hle Hlt]; intros Hb j; [reflexivity|].
  rewrite fold_left_app. cbn [fold_left]. set (F := fold_left relax E dp0) in *.
  assert (HlF : length F = length dp0) by apply relaxes_length.
  assert (Hbe : e_dst e < length F) by (rewrite HlF; apply Hb; apply in_or_app; right; now left).
  assert (IH' := IH (fun e' H => Hb e' (in_or_app _ _ _ (or_introl H)))).
  unfold into. rewrite filter_app, fold_left_app. fold (into j E). cbn [filter].
  assert (Hext : forall cur, fold_left (pick (get (relax F e))) (into j E) cur = fold_left (pick (get F)) (into j E) cur).
  { intros cur. apply fold_pick_ext. intros e' He'. apply into_In in He' as [He' _].
    rewrite get_relax by assumption.
    destruct (Nat.eqb_spec (e_src e') (e_dst e)) as [Heq|]; [|reflexivity].
    specialize (Hle e' He'). lia. }
  rewrite Hext, <- IH'. rewrite get_relax by assumption.
  rewrite (Nat.eqb_sym (e_dst e) j). destruct (Nat.eqb_spec j (e_dst e)) as [->|Hn]; [|reflexivity].
  cbn [fold_left]. apply pick_ext. rewrite get_relax by assumption.
  destruct (Nat.eqb_spec (e_src e) (e_dst e)); [lia|reflexivity].
Qed.

(** ** Paths *)

(** A path from position 0 to [j] over edges of [E]: its edges, in order, and its score. *)
Inductive path (E : list edge) : nat -> list edge -> f64 -> Prop :=
| path_nil : path E 0 [] f0
| path_snoc es sc e :
    path E (e_src e) es sc -> In e E -> path E (e_dst e) (es ++ [e]) (fadd sc (e_w e)).

(** The initial table. *)
Definition init_table (n : nat) : list dp_node :=
  update (repeat (DP 0%N f0 None) (S n)) 0 (DP 0%N f0 (Some 0)).

Lemma init_table_length n : length (init_table n) = S n.
Proof. unfold init_table. now rewrite length_update, repeat_length. Qed.

Lemma get_init n j : get (init_table n) j = if j =? 0 then DP 0%N f0 (Some 0) else dflt.
Proof.
  unfold init_table, get. destruct j as [|j]; [reflexivity|]. simpl.
  rewrite nth_repeat. reflexivity.
Qed.

(** What the fold of [pick] over incoming edges returns: the start value, or a
    reachable edge that is the first of the best ones. *)
Lemma fold_pick_some g E : forall cur,
  (forall e, In e E -> is_none (dp_start (g (e_src e))) = true) ->
  fold_left (pick g) E cur = cur.
Proof.
  induction E as [|e E IH]; intros cur H; simpl; [reflexivity|].
  unfold pick at 2. rewrite H by now left. apply IH. intros; apply H; now right.
Qed.

Definition cand (g : nat -> dp_node) (e : edge) : dp_node :=
  DP (e_id e) (fadd (dp_score (g (e_src e))) (e_w e)) (Some (e_src e)).

Lemma fold_pick_spec g E : forall cur,
  let r := fold_left (pick g) E cur in
  (r = cur \/ exists e, In e E /\ is_none (dp_start (g (e_src e))) = false /\ r = cand g e) /\
  (is_none (dp_start r) = true ->
     is_none (dp_start cur) = true /\ forall e, In e E -> is_none (dp_start (g (e_src e))) = true).
Proof.
  induction E as [|e E IH]; intros cur r; simpl in r; subst r.
  - simpl. split; [now left|]. intros H. split; [exact H|easy].
  - cbn [fold_left]. destruct (IH (pick g cur e)) as [H1 H2]. split.
    + destruct H1 as [H1|(e' & Hin & Hs & Hr)].
      * rewrite H1. unfold pick. destruct (is_none (dp_start (g (e_src e)))) eqn:Es; [now left|].
        cbv zeta. destruct (_ || _); [|now left]. right. exists e. split; [now left|]. split; [exact Es|reflexivity].
      * right. exists e'. split; [now right|]. auto.
    + intros Hn. destruct (H2 Hn) as [H3 H4].
      unfold pick in H3. destruct (is_none (dp_start (g (e_src e)))) eqn:Es.
      * split; [exact H3|]. intros e' [<-|Hin]; auto.
      * cbv zeta in H3. destruct (is_none (dp_start cur)) eqn:Ec; simpl in H3; [discriminate|].
        destruct (fltb _ _); simpl in H3; congruence.
Qed.

(** The final entries: reachable exactly where a path ends, and then with the
    score and last edge of some path. *)
Section Table.
  Variables (E : list edge) (n : nat).
  Hypothesis HO : ordered E.
  Hypothesis Hb : forall e, In e E -> e_dst e <= n.
  Let F := fold_left relax E (init_table n).

  Lemma table_fix j : get F j = fold_left (pick (get F)) (into j E) (if j =? 0 then DP 0%N f0 (Some 0) else dflt).
  Proof.
    unfold F. rewrite relaxes_fix; [now rewrite get_init|exact HO|].
    intros e He. rewrite init_table_length. specialize (Hb _ He). lia.
  Qed.

  Lemma table_0 : get F 0 = DP 0%N f0 (Some 0).
  Proof.
    rewrite table_fix. simpl. replace (into 0 E) with (@nil edge); [reflexivity|].
    destruct (into 0 E) as [|e l] eqn:Ei; [reflexivity|].
    assert (Hin : In e (into 0 E)) by (rewrite Ei; now left).
    apply into_In in Hin as [Hin Hd]. apply (ordered_forward _ HO) in Hin. lia.
  Qed.

  Lemma table_entry j start :
    dp_start (get F j) = Some start -> 0 < j ->
    exists e, In e E /\ e_dst e = j /\ e_src e = start /\ start < j /\
      is_none (dp_start (get F start)) = false /\ get F j = cand (get F) e.
  Proof.
    intros Hs Hj. destruct (fold_pick_spec (get F) (into j E) (if j =? 0 then DP 0%N f0 (Some 0) else dflt)) as [H1 _].
    rewrite <- table_fix in H1.
    replace (j =? 0) with false in H1 by (symmetry; apply Nat.eqb_neq; lia).
    destruct H1 as [H1|(e & Hin & Hne & H1)].
    - rewrite H1 in Hs. discriminate.
    - rewrite H1 in Hs. simpl in Hs. injection Hs as <-.
      apply into_In in Hin as [Hin Hd]. exists e. assert (Hf := ordered_forward _ HO Hin).
      repeat split; auto. lia.
  Qed.

  Lemma table_none j :
    dp_start (get F j) = None ->
    0 < j /\ forall e, In e E -> e_dst e = j -> dp_start (get F (e_src e)) = None.
  Proof.
    intros Hs. destruct j as [|j]; [rewrite table_0 in Hs; discriminate|]. split; [lia|].
    destruct (fold_pick_spec (get F) (into (S j) E) (if S j =? 0 then DP 0%N f0 (Some 0) else dflt)) as [_ H2].
    rewrite <- table_fix in H2. rewrite Hs in H2. specialize (H2 eq_refl) as [_ H2].
    intros e He Hd. specialize (H2 e (proj2 (into_In _ _ _) (conj He Hd))).
    destruct (dp_start (get F (e_src e))); [discriminate|reflexivity].
  Qed.

  (** Unreachable entries have no path. *)
  Lemma table_none_path j es sc : path E j es sc -> dp_start (get F j) <> None.
  Proof.
    induction 1 as [|es sc e Hp IH Hin].
    - rewrite table_0. discriminate.
    - intros Hn. apply table_none in Hn as [_ Hn]. apply IH. now apply Hn.
  Qed.

  (** The path that backtracking follows. *)
  Inductive traced : nat -> list edge -> Prop :=
  | traced_nil : traced 0 []
  | traced_snoc es e :
      traced (e_src e) es -> In e E -> get F (e_dst e) = cand (get F) e ->
      is_none (dp_start (get F (e_src e))) = false ->
      traced (e_dst e) (es ++ [e]).

  Lemma traced_path j es : traced j es -> path E j es (dp_score (get F j)).
  Proof.
    induction 1 as [|es e Ht IH Hin Hg Hn].
    - rewrite table_0. constructor.
    - rewrite Hg. simpl. now constructor.
  Qed.

  Lemma traced_ex j : dp_start (get F j) <> None -> exists es, traced j es.
  Proof.
    induction j as [j IH] using lt_wf_ind. intros Hs.
    destruct j as [|j]; [exists []; constructor|].
    destruct (dp_start (get F (S j))) as [start|] eqn:Es; [|congruence].
    destruct (table_entry Es ltac:(lia)) as (e & Hin & Hd & Hsrc & Hlt & Hne & Hg).
    destruct (IH start Hlt) as (es & Ht).
    { destruct (dp_start (get F start)); [discriminate|simpl in Hne; discriminate]. }
    exists (es ++ [e]). rewrite <- Hd. constructor; auto; now rewrite ?Hd, ?Hsrc.
  Qed.

  Lemma path_pos j es sc : path E j es sc -> length es <= j.
  Proof.
    induction 1 as [|es sc e Hp IH Hin]; simpl; [lia|].
    rewrite app_length. simpl. apply (ordered_forward _ HO) in Hin. lia.
  Qed.

  Lemma backtrack_traced len j es : traced j es -> forall fuel acc, length es <= fuel -> j <= n ->
    backtrack fuel F len j acc = Ok (acc ++ rev (map e_id es)).
  Proof.
    induction 1 as [|es e Ht IH Hin Hg Hn]; intros fuel acc Hf Hj.
    - destruct fuel; simpl; now rewrite app_nil_r.
    - assert (Hlt := ordered_forward _ HO Hin).
      rewrite app_length in Hf. simpl in Hf. destruct fuel as [|fuel]; [lia|].
      destruct (e_dst e) as [|d] eqn:Ed; [lia|]. cbn [backtrack].
      rewrite index_nth with (d := dflt).
      2: { unfold F. rewrite relaxes_length, init_table_length. lia. }
      fold (get F (S d)). cbn [bind]. rewrite Hg. simpl.
      rewrite IH by lia. rewrite map_app, rev_app_distr. simpl. now rewrite <- app_assoc.
  Qed.

  Lemma backtrack_none len j fuel acc : dp_start (get F j) = None -> j <= n -> 0 < fuel ->
    backtrack fuel F len j acc = Err (NoPath j len).
  Proof.
    intros Hn Hj Hf. destruct fuel as [|fuel]; [lia|].
    destruct j as [|j]; [rewrite table_0 in Hn; discriminate|].
    cbn [backtrack]. rewrite index_nth with (d := dflt).
    2: { unfold F. rewrite relaxes_length, init_table_length. lia. }
    fold (get F (S j)). cbn [bind]. now rewrite Hn.
  Qed.

  (** ** Optimality, for finite scores *)
  Hypothesis Hfin : forall e, In e E -> f_is_finite (e_w e) = true.

  Lemma path_not_nan j es sc : path E j es sc -> f_is_nan sc = false.
  Proof.
    induction 1 as [|es sc e Hp IH Hin]; [reflexivity|]. apply fadd_not_nan; [exact IH|]. now apply Hfin.
  Qed.

  Lemma table_not_nan j : dp_start (get F j) <> None -> f_is_nan (dp_score (get F j)) = false.
  Proof. intros H. destruct (traced_ex _ H) as (es & Ht). exact (path_not_nan (traced_path Ht)). Qed.

  (** [pick] in order of source, for scores that are not NaN: the result is at
      least as good as every candidate, and strictly better than those before it. *)
  Lemma fold_pick_max g L : forall cur,
    (forall e, In e L -> is_none (dp_start (g (e_src e))) = false -> f_is_nan (dp_score (cand g e)) = false) ->
    (is_none (dp_start cur) = false -> f_is_nan (dp_score cur) = false) ->
    let r := fold_left (pick g) L cur in
    (is_none (dp_start cur) = false -> is_none (dp_start r) = false /\ fleb (dp_score cur) (dp_score r) = true) /\
    (forall e, In e L -> is_none (dp_start (g (e_src e))) = false ->
       is_none (dp_start r) = false /\ fleb (dp_score (cand g e)) (dp_score r) = true).
  Proof.
    induction L as [|e L IH]; intros cur HL Hc r; simpl in r; subst r.
    - split; [|easy]. intros H. simpl. split; [exact H|]. apply fleb_refl. auto.
    - cbn [fold_left].
      assert (Hc' : is_none (dp_start (pick g cur e)) = false -> f_is_nan (dp_score (pick g cur e)) = false).
      { unfold pick. destruct (is_none (dp_start (g (e_src e)))) eqn:Es; [exact Hc|]. cbv zeta.
        destruct (_ || _); [|exact Hc]. intros _. apply (HL e); [now left|exact Es]. }
      destruct (IH (pick g cur e) (fun e' H => HL e' (or_intror H)) Hc') as [H1 H2].
      assert (Hpe : is_none (dp_start (g (e_src e))) = false ->
        is_none (dp_start (pick g cur e)) = false /\ fleb (dp_score (cand g e)) (dp_score (pick g cur e)) = true).
      { intros Es. assert (Hnn := HL e (or_introl eq_refl) Es). unfold pick. rewrite Es. cbv zeta. unfold cand in *. simpl in *.
        destruct (is_none (dp_start cur)) eqn:Ec; simpl.
        - split; [reflexivity|]. now apply fleb_refl.
        - destruct (fltb _ _) eqn:El; simpl.
          + split; [reflexivity|]. now apply fleb_refl.
          + split; [exact Ec|]. rewrite fltb_fleb in El; [|auto|auto]. now apply negb_false_iff in El. }
      assert (Hpc : is_none (dp_start cur) = false ->
        is_none (dp_start (pick g cur e)) = false /\ fleb (dp_score cur) (dp_score (pick g cur e)) = true).
      { intros Ec. unfold pick. destruct (is_none (dp_start (g (e_src e)))) eqn:Es.
        - split; [exact Ec|]. apply fleb_refl; auto.
        - cbv zeta. rewrite Ec. simpl. destruct (fltb _ _) eqn:El; simpl.
          + split; [reflexivity|]. now apply fltb_fleb_weak.
          + split; [exact Ec|]. apply fleb_refl; auto. }
      split.
      + intros Ec. destruct (Hpc Ec) as [Ha Hb']. destruct (H1 Ha) as [Hc1 Hc2].
        split; [exact Hc1|]. eapply fleb_trans; eassumption.
      + intros e' [<-|Hin] Es.
        * destruct (Hpe Es) as [Ha Hb']. destruct (H1 Ha) as [Hc1 Hc2].
          split; [exact Hc1|]. eapply fleb_trans; eassumption.
        * now apply H2.
  Qed.

  Lemma table_max e : In e E -> dp_start (get F (e_src e)) <> None ->
    dp_start (get F (e_dst e)) <> None /\
    fleb (fadd (dp_score (get F (e_src e))) (e_w e)) (dp_score (get F (e_dst e))) = true.
  Proof.
    intros Hin Hs. set (j := e_dst e).
    destruct (@fold_pick_max (get F) (into j E) (if j =? 0 then DP 0%N f0 (Some 0) else dflt)) as [_ H].
    - intros e' He' Hs'. apply into_In in He' as [He' _]. simpl. apply fadd_not_nan; [|now apply Hfin].
      apply table_not_nan. destruct (dp_start (get F (e_src e'))); discriminate.
    - intros _. now destruct (j =? 0).
    - rewrite <- table_fix in H. specialize (H e (proj2 (into_In _ _ _) (conj Hin eq_refl))).
      destruct H as [H1 H2].
      + destruct (dp_start (get F (e_src e))); [reflexivity|congruence].
      + split; [|exact H2]. destruct (dp_start (get F j)); [discriminate|discriminate].
  Qed.

  (** Every path scores at most what the table holds. *)
  Lemma table_optimal j es sc : path E j es sc -> fleb sc (dp_score (get F j)) = true.
  Proof.
    induction 1 as [|es sc e Hp IH Hin].
    - rewrite table_0. reflexivity.
    - eapply fleb_trans.
      + apply fadd_mono_l; [now apply Hfin|exact IH].
      + apply table_max; [exact Hin|]. now apply (table_none_path Hp).
  Qed.

  (** Ties: the winning edge's source comes first among the best. *)
  Lemma fold_pick_first g L : forall cur,
    is_none (dp_start cur) = true ->
    (forall e, In e L -> is_none (dp_start (g (e_src e))) = false -> f_is_nan (dp_score (cand g e)) = false) ->
    forall L1 e L2, L = L1 ++ e :: L2 -> is_none (dp_start (g (e_src e))) = false ->
    (forall e', In e' L -> is_none (dp_start (g (e_src e'))) = false -> fleb (dp_score (cand g e')) (dp_score (cand g e)) = true) ->
    (forall e', In e' L1 -> is_none (dp_start (g (e_src e'))) = false -> fltb (dp_score (cand g e')) (dp_score (cand g e)) = true) ->
    fold_left (pick g) L cur = cand g e.
  Proof.
    intros cur Hc HL L1 e L2 -> Hs Hall Hpre.
    rewrite fold_left_app. cbn [fold_left].
    assert (H1 : pick g (fold_left (pick g) L1 cur) e = cand g e).
    { destruct (fold_pick_spec g L1 cur) as [H _]. unfold pick at 1. rewrite Hs. cbv zeta.
      destruct H as [->|(e' & Hin & Hs' & ->)].
      - rewrite Hc. reflexivity.
      - specialize (Hpre e' Hin Hs'). unfold cand in *. simpl in *. rewrite Hpre. reflexivity. }
    rewrite H1. clear H1 Hpre.
    assert (HL2 : forall e', In e' L2 -> is_none (dp_start (g (e_src e'))) = false ->
              fleb (dp_score (cand g e')) (dp_score (cand g e)) = true /\ f_is_nan (dp_score (cand g e')) = false).
    { intros e' Hin. assert (In e' (L1 ++ e :: L2)) by (apply in_or_app; right; now right). auto. }
    assert (Hne : f_is_nan (dp_score (cand g e)) = false).
    { apply HL; [apply in_or_app; right; now left|exact Hs]. }
    clear Hall HL. induction L2 as [|e2 L2 IH]; cbn [fold_left]; [reflexivity|].
    assert (H2 : pick g (cand g e) e2 = cand g e).
    { unfold pick. destruct (is_none (dp_start (g (e_src e2)))) eqn:E2; [reflexivity|]. cbv zeta.
      destruct (HL2 e2 (or_introl eq_refl) E2) as [Hle Hn].
      rewrite fltb_fleb by assumption. unfold cand in Hle. simpl in Hle. unfold cand. simpl. now rewrite Hle. }
    rewrite H2. apply IH. intros e' Hin. apply HL2. now right.
  Qed.
End Table.
