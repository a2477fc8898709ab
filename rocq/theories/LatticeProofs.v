(** The structure of lattices and the Viterbi search. *)
From Coq Require Import Permutation.
From Verif Require Import Base F64 Trie Model BaseProofs Lattice SpecLattice.
Set Implicit Arguments.

Ltac splits := repeat match goal with |- _ /\ _ => split end.

(** * Lists *)
Lemma index_Some {A} (l : list A) i a : nth_error l i = Some a -> index l i = Ok a.
Proof. unfold index. now intros ->. Qed.
Lemma index_inv {A} (l : list A) i a : index l i = Ok a -> nth_error l i = Some a.
Proof. unfold index. destruct (nth_error l i); congruence. Qed.
Lemma nth_error_lt {A} (l : list A) i : i < length l -> exists a, nth_error l i = Some a.
Proof. intros H. destruct (nth_error l i) eqn:E; [eauto|]. apply nth_error_None in E. lia. Qed.
Lemma store_inv {A} (l l' : list A) i a : store l i a = Ok l' -> i < length l /\ l' = update l i a.
Proof. unfold store. destruct (Nat.ltb_spec i (length l)); [|discriminate]. intros E. injection E as <-. auto. Qed.
Lemma bind_Ok {A B} (x : res A) (k : A -> res B) b : bind x k = Ok b -> exists a, x = Ok a /\ k a = Ok b.
Proof. destruct x; try discriminate. eauto. Qed.

(** * The pool *)
Lemma Pool_empty p : Pool p -> Forall (fun v => v = []) p.
Proof.
  induction 1 as [|a b|p v p' H IH E|p v H IH].
  - constructor.
  - apply Forall_forall. intros v Hv. now apply repeat_spec in Hv.
  - destruct p as [|w p]; injection E as <- <-; [constructor|]. now inversion IH.
  - constructor; auto.
Qed.
Lemma Pool_puts vs : forall p, Pool p -> Pool (fold_left pool_put vs p).
Proof. induction vs as [|v vs IH]; intros p H; [exact H|]. apply IH. now constructor. Qed.
Lemma Pool_take n : forall p, Pool p -> exists p', pool_take n p = (repeat [] n, p') /\ Pool p'.
Proof.
  induction n as [|n IH]; intros p H; [exists p; auto|]. simpl. destruct (pool_get p) as [v p1] eqn:E.
  assert (H1 : Pool p1) by (econstructor; eauto). destruct (IH _ H1) as (p2 & -> & H2). exists p2. split; [|exact H2].
  apply Pool_empty in H. destruct p as [|w p]; injection E as <- <-; [reflexivity|]. inversion H. now subst.
Qed.

Section Structure.
  Context {S : Type} (A : arith S).

  Definition bos_span : span S := Span 0 bos_id 0 (a_zero A).
  Definition eos_span (len : nat) : span S := Span len eos_id 0 (a_zero A).
  Definition all_spans (len : nat) (E : list (span S)) : list (span S) := bos_span :: eos_span len :: E.

  Definition sat (G : list (span S)) (f : span S -> bool) (i : nat) : bool :=
    match nth_error G i with Some e => f e | None => false end.
  (** The nodes that begin and end at a position. *)
  Definition begins (G : list (span S)) (pos : nat) : list nat :=
    filter (fun i => negb (i =? 0) && sat G (fun e => s_pos e =? pos) i) (seq 0 (length G)).
  Definition ends (G : list (span S)) (pos : nat) : list nat :=
    filter (fun i => negb (i =? 1) && sat G (fun e => s_end e =? pos) i) (seq 0 (length G)).

  Lemma begins_spec G pos i : In i (begins G pos) <-> i <> 0 /\ exists e, nth_error G i = Some e /\ s_pos e = pos.
  Proof.
    unfold begins. rewrite filter_In, in_seq, andb_true_iff, negb_true_iff, Nat.eqb_neq. unfold sat. split.
    - intros (_ & Hi & H). split; [exact Hi|]. destruct (nth_error G i) as [e|]; [|discriminate]. apply Nat.eqb_eq in H. eauto.
    - intros (Hi & e & E & H). rewrite E. splits; auto; [lia| |now apply Nat.eqb_eq]. apply nth_error_Some. congruence.
  Qed.
  Lemma ends_spec G pos i : In i (ends G pos) <-> i <> 1 /\ exists e, nth_error G i = Some e /\ s_end e = pos.
  Proof.
    unfold ends. rewrite filter_In, in_seq, andb_true_iff, negb_true_iff, Nat.eqb_neq. unfold sat. split.
    - intros (_ & Hi & H). split; [exact Hi|]. destruct (nth_error G i) as [e|]; [|discriminate]. apply Nat.eqb_eq in H. eauto.
    - intros (Hi & e & E & H). rewrite E. splits; auto; [lia| |now apply Nat.eqb_eq]. apply nth_error_Some. congruence.
  Qed.
  Lemma begins_NoDup G pos : NoDup (begins G pos).
  Proof. apply NoDup_filter, seq_NoDup. Qed.
  Lemma ends_NoDup G pos : NoDup (ends G pos).
  Proof. apply NoDup_filter, seq_NoDup. Qed.

  Lemma filter_seq_snoc (f g : nat -> bool) n : (forall i, i < n -> f i = g i) ->
    filter f (seq 0 (n + 1)) = filter g (seq 0 n) ++ (if f n then [n] else []).
  Proof.
    intros H. rewrite seq_app, filter_app. simpl. f_equal. apply filter_ext_in. intros i Hi. apply in_seq in Hi. apply H. lia.
  Qed.
  Lemma begins_snoc G e pos : G <> [] -> begins (G ++ [e]) pos = begins G pos ++ (if s_pos e =? pos then [length G] else []).
  Proof.
    intros HG. unfold begins. rewrite app_length. simpl.
    rewrite (@filter_seq_snoc _ (fun i => negb (i =? 0) && sat G (fun e => s_pos e =? pos) i)).
    - f_equal. unfold sat. rewrite nth_error_app2, Nat.sub_diag by lia. simpl.
      destruct (Nat.eqb_spec (length G) 0) as [E0|_]; [now destruct G|]. reflexivity.
    - intros i Hi. unfold sat. now rewrite nth_error_app1.
  Qed.
  Lemma ends_snoc G e pos : 2 <= length G -> ends (G ++ [e]) pos = ends G pos ++ (if s_end e =? pos then [length G] else []).
  Proof.
    intros HG. unfold ends. rewrite app_length. simpl.
    rewrite (@filter_seq_snoc _ (fun i => negb (i =? 1) && sat G (fun e => s_end e =? pos) i)).
    - f_equal. unfold sat. rewrite nth_error_app2, Nat.sub_diag by lia. simpl.
      destruct (Nat.eqb_spec (length G) 1) as [E0|_]; [lia|]. reflexivity.
    - intros i Hi. unfold sat. now rewrite nth_error_app1.
  Qed.

  (** Spans and values of nodes. *)
  Definition nodes_ok (G : list (span S)) (nodes : list (node S)) : Prop :=
    map span_of nodes = G /\ exists n, nth_error nodes 0 = Some n /\ n_prev n = None /\ n_back n = a_zero A.

  Definition back (nodes : list (node S)) (i : nat) : S := match nth_error nodes i with Some n => n_back n | None => a_zero A end.
  Definition prev (nodes : list (node S)) (i : nat) : option nat := match nth_error nodes i with Some n => n_prev n | None => None end.
  Definition score (G : list (span S)) (i : nat) : S := match nth_error G i with Some e => s_score e | None => a_zero A end.
  Definition pos_of (G : list (span S)) (i : nat) : nat := match nth_error G i with Some e => s_pos e | None => 0 end.

  Record inv (s : bytes) (E : list (span S)) (l : lattice S) : Prop := {
    i_sentence : l_sentence l = s;
    i_bos : l_bos l = 0;
    i_eos : l_eos l = 1;
    i_nodes : nodes_ok (all_spans (length s) E) (l_nodes l);
    i_begin_len : length (l_begin l) = length s + 1;
    i_end_len : length (l_end l) = length s + 1;
    i_begin : forall pos, pos <= length s -> nth_error (l_begin l) pos = Some (begins (all_spans (length s) E) pos);
    i_end : forall pos, pos <= length s -> nth_error (l_end l) pos = Some (ends (all_spans (length s) E) pos);
    i_inside : Forall (fun e => s_end e <= length s) E }.

  Lemma nodes_at (G : list (span S)) nodes i e : map span_of nodes = G -> nth_error G i = Some e -> exists n, nth_error nodes i = Some n /\ span_of n = e.
  Proof. intros <- H. rewrite nth_error_map in H. destruct (nth_error nodes i); [|discriminate]. injection H as <-. eauto. Qed.
  Lemma nodes_at' (G : list (span S)) nodes i n : map span_of nodes = G -> nth_error nodes i = Some n -> nth_error G i = Some (span_of n).
  Proof. intros <- H. now rewrite nth_error_map, H. Qed.
  Lemma map_update {B C} (f : B -> C) (l : list B) i b x : nth_error l i = Some x -> f b = f x -> map f (update l i b) = map f l.
  Proof. revert i; induction l as [|y l IH]; intros [|i] H E; simpl in *; try discriminate; [injection H as ->|]; f_equal; eauto. Qed.

  Lemma nth_error_push_at xs i x v : nth_error xs i = Some v -> exists ys, push_at xs i x = Ok ys /\ length ys = length xs /\
    nth_error ys i = Some (v ++ [x]) /\ forall j, j <> i -> nth_error ys j = nth_error xs j.
  Proof.
    intros H. assert (Hi : i < length xs) by (apply nth_error_Some; congruence). unfold push_at. rewrite (index_Some _ _ H). simpl.
    rewrite store_ok by exact Hi. eexists. split; [reflexivity|]. split; [apply length_update|]. rewrite nth_error_update, Nat.eqb_refl.
    destruct (Nat.ltb_spec i (length xs)); [|lia]. simpl. split; [reflexivity|]. intros j Hj. rewrite nth_error_update. now destruct (Nat.eqb_spec i j), (Nat.eqb_spec j i); try congruence.
  Qed.
  Lemma push_at_Ok xs i x ys : push_at xs i x = Ok ys -> exists v, nth_error xs i = Some v.
  Proof. unfold push_at, index. destruct (nth_error xs i); [eauto|discriminate]. Qed.

  (** ** from *)
  Lemma from_spec l0 s p : Pool p -> exists l p', lattice_from A l0 s p = Ok (l, p') /\ Pool p' /\ inv s [] l.
  Proof.
    intros Hp. unfold lattice_from. assert (H1 := Pool_puts (l_end l0) (Pool_puts (l_begin l0) Hp)).
    destruct (Pool_take (length s + 1) H1) as (p1 & -> & H2). destruct (Pool_take (length s + 1) H2) as (p2 & -> & H3).
    assert (H0 : forall i, i <= length s -> nth_error (repeat (@nil nat) (length s + 1)) i = Some []).
    { intros i Hi. rewrite nth_error_repeat by lia. reflexivity. }
    destruct (nth_error_push_at _ 0 0 (H0 0 (Nat.le_0_l _))) as (es & -> & Hel & He0 & He).
    destruct (nth_error_push_at _ (length s) 1 (H0 _ (Nat.le_refl _))) as (bs & -> & Hbl & Hb0 & Hb).
    cbn [bind]. eexists _, _. splits; [reflexivity|exact H3|].
    constructor; try reflexivity; cbn [l_sentence l_begin l_end l_nodes].
    - split; [reflexivity|]. eexists. split; [reflexivity|]. split; reflexivity.
    - now rewrite Hbl, repeat_length.
    - now rewrite Hel, repeat_length.
    - intros pos Hpos. unfold begins, all_spans, sat. cbn [length seq filter nth_error Nat.eqb negb andb s_pos eos_span].
      destruct (Nat.eqb_spec (length s) pos) as [<-|Hn]; [exact Hb0|]. rewrite Hb by congruence. now apply H0.
    - intros pos Hpos. unfold ends, all_spans, sat. cbn [length seq filter nth_error Nat.eqb negb andb].
      change (s_end bos_span) with 0.
      destruct pos as [|pos]; [exact He0|]. cbn [Nat.eqb]. rewrite He by congruence. now apply H0.
    - constructor.
  Qed.

  (** ** insert *)
  Lemma insert_spec s E l pos id len sc : inv s E l -> pos + len <= length s ->
    exists l', lattice_insert A l pos id len sc = Ok l' /\ inv s (E ++ [Span pos id len sc]) l'.
  Proof.
    intros I H. set (G := all_spans (length s) E). unfold lattice_insert.
    assert (Hn : length (l_nodes l) = length G) by (rewrite <- (map_length span_of), (proj1 (i_nodes I)); reflexivity).
    destruct (nth_error_push_at _ pos (length (l_nodes l)) (i_begin I (pos := pos) ltac:(lia))) as (bs & -> & Hbl & Hb0 & Hb).
    destruct (nth_error_push_at _ (pos + len) (length (l_nodes l)) (i_end I H)) as (es & -> & Hel & He0 & He).
    cbn [bind]. eexists. split; [reflexivity|].
    assert (EG : all_spans (length s) (E ++ [Span pos id len sc]) = G ++ [Span pos id len sc]) by reflexivity.
    constructor; cbn [l_sentence l_bos l_eos l_nodes l_begin l_end]; try apply I.
    - rewrite EG. destruct (i_nodes I) as [HG (n & H0 & Hn0)]. split.
      + now rewrite map_app, HG.
      + exists n. split; [|exact Hn0]. rewrite nth_error_app1; [exact H0|]. apply nth_error_Some. congruence.
    - rewrite Hbl. apply I.
    - rewrite Hel. apply I.
    - intros p Hp. rewrite EG, begins_snoc by discriminate. cbn [s_pos]. rewrite Hn in Hb0. destruct (Nat.eqb_spec pos p) as [<-|Hne].
      + exact Hb0.
      + rewrite app_nil_r, Hb by congruence. now apply I.
    - intros p Hp. rewrite EG, ends_snoc by (simpl; lia). change (s_end (Span pos id len sc)) with (pos + len).
      rewrite Hn in He0. destruct (Nat.eqb_spec (pos + len) p) as [<-|Hne].
      + exact He0.
      + rewrite app_nil_r, He by congruence. now apply I.
    - apply Forall_app. split; [apply I|]. repeat constructor. exact H.
  Qed.
  Lemma insert_Ok s E l pos id len sc l' : inv s E l -> lattice_insert A l pos id len sc = Ok l' -> pos + len <= length s.
  Proof.
    intros I H. unfold lattice_insert in H. apply bind_Ok in H as (bs & _ & H). apply bind_Ok in H as (es & H & _).
    apply push_at_Ok in H as (v & H). assert (Hl : pos + len < length (l_end l)) by (apply nth_error_Some; congruence).
    rewrite (i_end_len I) in Hl. lia.
  Qed.

  (** ** Orders *)
  Definition le (x y : S) : Prop := a_ltb A y x = false.
  (** [good] are the values sums can have, [sc] those of scores. *)
  Record ordered (good sc : S -> Prop) : Prop := {
    good_zero : good (a_zero A);
    sc_zero : sc (a_zero A);
    good_add : forall x w, good x -> sc w -> good (a_add A x w);
    le_refl : forall x, good x -> le x x;
    le_trans : forall x y z, good x -> good y -> good z -> le x y -> le y z -> le x z;
    lt_le : forall x y, good x -> good y -> a_ltb A x y = true -> le x y;
    add_mono : forall x y w, good x -> good y -> sc w -> le x y -> le (a_add A x w) (a_add A y w) }.

  (** ** Neighbours *)
  Section Spans.
  Variables (len : nat) (E : list (span S)).
  Let G := all_spans len E.
  Hypothesis Hne : non_empty E.

  Lemma G_at i e : nth_error G i = Some e -> i = 0 /\ e = bos_span \/ i = 1 /\ e = eos_span len \/ exists k, i = 2 + k /\ nth_error E k = Some e.
  Proof.
    destruct i as [|[|k]]; cbn [nth_error G all_spans]; [intros H; injection H as <-; auto|intros H; injection H as <-; auto|].
    intros H. right. right. exists k. auto.
  Qed.
  Lemma ends_before l p : In l (ends G p) -> l <> 1 /\ l < length G /\ (l = 0 /\ p = 0 \/ 2 <= l /\ pos_of G l < p).
  Proof.
    rewrite ends_spec. intros (H1 & e & He & Hp). split; [exact H1|]. split; [apply nth_error_Some; congruence|].
    destruct (G_at _ He) as [(-> & ->)|[(-> & _)|(k & -> & Hk)]]; [left; split; [reflexivity|now subst p]|congruence|]. right. split; [lia|].
    unfold pos_of. rewrite He. apply nth_error_In in Hk. assert (Hl := proj1 (Forall_forall _ _) Hne e Hk). unfold s_end in Hp. cbv beta in Hl. lia.
  Qed.
  Lemma ends_not_begins l p : In l (ends G p) -> ~ In l (begins G p).
  Proof.
    intros Hl Hb. apply begins_spec in Hb as (H0 & e & He & Hp). destruct (ends_before _ _ Hl) as (_ & _ & [(-> & _)|(_ & H)]); [congruence|].
    unfold pos_of in H. rewrite He in H. lia.
  Qed.

  Definition optimal (nodes : list (node S)) (i : nat) : Prop :=
    forall good sc, ordered good sc -> (forall j, sc (score G j)) ->
    good (back nodes i) /\ forall l, In l (ends G (pos_of G i)) -> le (a_add A (back nodes l) (score G i)) (back nodes i).
  Definition solved (nodes : list (node S)) (i : nat) : Prop :=
    (exists l, prev nodes i = Some l /\ In l (ends G (pos_of G i)) /\ back nodes i = a_add A (back nodes l) (score G i)) /\ optimal nodes i.

  Lemma solved_ext nodes nodes' i : (forall j, j = i \/ In j (ends G (pos_of G i)) -> nth_error nodes' j = nth_error nodes j) ->
    solved nodes i -> solved nodes' i.
  Proof.
    intros H [(l & H1 & H2 & H3) HO]. assert (Hb : forall j, j = i \/ In j (ends G (pos_of G i)) -> back nodes' j = back nodes j) by (intros j Hj; unfold back; now rewrite H).
    split.
    - exists l. unfold prev in *. rewrite H by auto. splits; auto. rewrite !Hb by auto. exact H3.
    - intros good sc Ho Hs. destruct (HO good sc Ho Hs) as [Hg HL]. rewrite Hb by auto. split; [exact Hg|]. intros l' Hl'. rewrite Hb by auto. auto.
  Qed.

  Lemma score_at nodes i n : map span_of nodes = G -> nth_error nodes i = Some n -> score G i = n_score n.
  Proof. intros HG H. unfold score. now rewrite (nodes_at' _ _ HG H). Qed.

  Lemma best_left_spec nodes r nr : nth_error nodes r = Some nr -> forall lefts best bs, (forall l, In l lefts -> l < length nodes) ->
    exists b s, best_left A nodes r lefts best bs = Ok (b, s) /\
      ((b = best /\ s = bs /\ (lefts = [] \/ best <> None)) \/ exists l, In l lefts /\ b = Some l /\ s = a_add A (back nodes l) (n_score nr)) /\
      (forall good sc, ordered good sc -> (forall l, In l lefts -> good (a_add A (back nodes l) (n_score nr))) -> (best <> None -> good bs) ->
        (b <> None -> good s) /\ (best <> None -> le bs s) /\ forall l, In l lefts -> le (a_add A (back nodes l) (n_score nr)) s).
  Proof.
    intros Hr. induction lefts as [|l lefts IH]; intros best bs Hl.
    - exists best, bs. splits; [reflexivity|left; auto|]. intros good sc Ho _ Hb. splits; [exact Hb| |intros l []]. intros Hn. eapply le_refl; [exact Ho|auto].
    - destruct (nth_error_lt nodes (i := l) (Hl l (or_introl eq_refl))) as (n & Hn). simpl. rewrite (index_Some _ _ Hn), (index_Some _ _ Hr). cbn [bind].
      assert (Eb : n_back n = back nodes l) by (unfold back; now rewrite Hn). rewrite Eb. clear Eb n Hn. set (c := a_add A (back nodes l) (n_score nr)).
      assert (Hl' : forall l', In l' lefts -> l' < length nodes) by (intros l' H'; apply Hl; now right).
      destruct (is_none best || a_ltb A bs c) eqn:Et.
      + destruct (IH (Some l) c Hl') as (b & s & HE & HC & HO). exists b, s. split; [exact HE|]. split.
        * right. destruct HC as [(-> & -> & _)|(l' & H1 & H2 & H3)]; [exists l|exists l']; simpl; auto.
        * intros good sc Ho Hg Hb. assert (Hc : good c) by (apply Hg; now left).
          destruct (HO good sc Ho (fun l' H' => Hg l' (or_intror H')) (fun _ => Hc)) as (H1 & H2 & H3).
          assert (Hs : good s). { apply H1. destruct HC as [(-> & _)|(l' & _ & -> & _)]; discriminate. }
          splits; [auto| |].
          -- intros Hn. destruct best; [|congruence]. simpl in Et. assert (Hbs : good bs) by (apply Hb; discriminate). apply (@le_trans _ _ Ho bs c s); auto; [now apply (@lt_le _ _ Ho)|apply H2; discriminate].
          -- intros l' [<-|H']; [apply H2; discriminate|auto].
      + apply orb_false_iff in Et as [Et1 Et2]. destruct best as [b0|]; [|discriminate]. destruct (IH (Some b0) bs Hl') as (b & s & HE & HC & HO). exists b, s. split; [exact HE|]. split.
        * destruct HC as [(-> & -> & _)|(l' & H1 & H2 & H3)]; [left|right; exists l'; simpl; auto]. splits; auto. right. discriminate.
        * intros good sc Ho Hg Hb. destruct (HO good sc Ho (fun l' H' => Hg l' (or_intror H')) Hb) as (H1 & H2 & H3). splits; auto.
          intros l' [<-|H']; [|auto]. assert (Hs : good s). { apply H1. destruct HC as [(-> & _)|(l' & _ & -> & _)]; discriminate. }
          assert (Hbs : good bs) by (apply Hb; discriminate). apply (@le_trans _ _ Ho _ bs s); auto. apply H2. discriminate.
  Qed.

  Lemma nodes_ok_update nodes r n n' : nodes_ok G nodes -> r <> 0 -> nth_error nodes r = Some n -> span_of n' = span_of n -> nodes_ok G (update nodes r n').
  Proof.
    intros [HG (m & Hm & Hm')] Hr Hn Es. split.
    - rewrite <- HG. eapply map_update; [exact Hn|exact Es].
    - exists m. split; [|exact Hm']. rewrite nth_error_update. now destruct (Nat.eqb_spec 0 r); [congruence|].
  Qed.
  Lemma nodes_length nodes : nodes_ok G nodes -> length nodes = length G.
  Proof. intros [<- _]. now rewrite map_length. Qed.

  Lemma viterbi_rights_spec p : forall rights nodes, nodes_ok G nodes -> NoDup rights -> incl rights (begins G p) ->
    (forall l, In l (ends G p) -> l = 0 \/ optimal nodes l) ->
    exists nodes' b, viterbi_rights A nodes (ends G p) rights = Ok (nodes', b) /\ nodes_ok G nodes' /\
      (forall i, ~ In i rights -> nth_error nodes' i = nth_error nodes i) /\
      (b = true -> forall r, In r rights -> solved nodes' r) /\ (b = false <-> ends G p = [] /\ rights <> []).
  Proof.
    induction rights as [|r rights IH]; intros nodes Hok Hnd Hincl Hopt.
    - exists nodes, true. simpl. splits; auto; [intros _ r []|]. split; [discriminate|]. now intros [_ H].
    - assert (Hrb : In r (begins G p)) by (apply Hincl; now left). assert (Hr := Hrb). apply begins_spec in Hr as (Hr0 & e & He & Hep).
      destruct (nodes_at _ _ (proj1 Hok) He) as (nr & Hnr & Es). simpl. rewrite (index_Some _ _ Hnr). cbn [bind].
      assert (Hlt : r < length nodes) by (apply nth_error_Some; congruence). rewrite store_ok by exact Hlt. cbn [bind].
      set (nodes1 := update nodes r (with_prev nr None)).
      assert (Hok1 : nodes_ok G nodes1) by (eapply nodes_ok_update; eauto).
      assert (H1 : nth_error nodes1 r = Some (with_prev nr None)).
      { unfold nodes1. rewrite nth_error_update, Nat.eqb_refl. now destruct (Nat.ltb_spec r (length nodes)); [|lia]. }
      assert (Hsame : forall i, i <> r -> nth_error nodes1 i = nth_error nodes i).
      { intros i Hi. unfold nodes1. rewrite nth_error_update. now destruct (Nat.eqb_spec i r). }
      assert (Hll : forall l, In l (ends G p) -> l < length nodes1). { intros l Hl. rewrite (nodes_length Hok1). now apply ends_before in Hl as (_ & H & _). }
      destruct (@best_left_spec nodes1 r _ H1 (ends G p) None (a_zero A) Hll) as (b & s & HB & HC & HO). rewrite HB. cbn [bind].
      assert (Hlr : forall l, In l (ends G p) -> l <> r). { intros l Hl ->. eapply ends_not_begins; eassumption. }
      destruct HC as [(-> & -> & HC)|(l0 & Hl0 & -> & ->)].
      + destruct HC as [HC|]; [|congruence]. simpl. exists nodes1, false. split; [reflexivity|]. split; [exact Hok1|]. split; [|split].
        * intros i Hi. apply Hsame. intros ->. apply Hi. now left.
        * discriminate.
        * split; [intros _; split; [exact HC|discriminate]|auto].
      + cbn [is_none]. rewrite store_ok by (unfold nodes1; now rewrite length_update). cbn [bind].
        set (nr' := with_back (with_prev nr (Some l0)) (a_add A (back nodes1 l0) (n_score (with_prev nr None)))).
        set (nodes2 := update nodes1 r nr').
        assert (Hok2 : nodes_ok G nodes2). { eapply nodes_ok_update; eauto. }
        assert (H2 : nth_error nodes2 r = Some nr').
        { unfold nodes2. rewrite nth_error_update, Nat.eqb_refl. unfold nodes1. rewrite length_update. now destruct (Nat.ltb_spec r (length nodes)); [|lia]. }
        assert (Hsame2 : forall i, i <> r -> nth_error nodes2 i = nth_error nodes i).
        { intros i Hi. unfold nodes2. rewrite nth_error_update. destruct (Nat.eqb_spec i r); [congruence|]. now apply Hsame. }
        assert (Hb2 : forall i, i <> r -> back nodes2 i = back nodes i) by (intros i Hi; unfold back; now rewrite Hsame2).
        assert (Hb1 : forall i, i <> r -> back nodes1 i = back nodes i) by (intros i Hi; unfold back; now rewrite Hsame).
        assert (Hnd' := Hnd). inversion Hnd' as [|? ? Hnr' Hnd2]; subst.
        assert (Hopt2 : forall l, In l (ends G (s_pos (span_of nr))) -> l = 0 \/ optimal nodes2 l).
        { intros l Hl. destruct (Hopt l Hl) as [->|Ho]; [now left|right]. intros good sc Hord Hsc. destruct (Ho good sc Hord Hsc) as [Hg Hmx].
          assert (Hlr' := Hlr l Hl). rewrite Hb2 by exact Hlr'. split; [exact Hg|]. intros l' Hl'. rewrite Hb2; [auto|].
          intros ->. destruct (ends_before _ _ Hl) as (_ & _ & [(-> & _)|(_ & Hpl)]).
          - apply ends_before in Hl' as (_ & _ & [(-> & _)|(_ & Hx)]); [congruence|]. unfold pos_of in Hx. simpl in Hx. lia.
          - apply ends_before in Hl' as (_ & _ & [(-> & _)|(_ & Hx)]); [congruence|]. unfold pos_of at 1 in Hx. rewrite He in Hx. lia. }
        destruct (IH nodes2 Hok2 Hnd2 (fun i Hi => Hincl i (or_intror Hi)) Hopt2) as (nodes3 & b & HE & Hok3 & Hs3 & Hsol & Hb).
        exists nodes3, b. split; [exact HE|]. split; [exact Hok3|]. split; [|split].
        * intros i Hi. rewrite Hs3 by (intros H; apply Hi; now right). apply Hsame2. intros ->. apply Hi. now left.
        * intros Hbt i [<-|Hi]; [|now apply Hsol]. apply solved_ext with (nodes := nodes2).
          -- intros j [->|Hj]; [now apply Hs3|]. apply Hs3. unfold pos_of in Hj. rewrite He in Hj. intros Hjr. apply (ends_not_begins _ _ Hj). apply Hincl. now right.
          -- assert (Epos : pos_of G r = s_pos (span_of nr)) by (unfold pos_of; now rewrite He).
             assert (Esc : score G r = n_score nr) by (unfold score; now rewrite He).
             split.
             ++ exists l0. unfold prev, back at 1. rewrite H2, Epos, Esc. splits; auto. simpl. now rewrite Hb2, Hb1 by auto.
             ++ intros good sc Hord Hsc.
                assert (Hgl : forall l, In l (ends G (s_pos (span_of nr))) -> good (a_add A (back nodes1 l) (n_score (with_prev nr None)))).
                { intros l Hl. apply (good_add Hord); [|simpl; rewrite <- Esc; apply Hsc]. rewrite Hb1 by auto. destruct (Hopt l Hl) as [->|Ho]; [|now apply (Ho good sc)].
                  destruct (proj2 Hok) as (n0 & Hn0 & _ & Hz). unfold back. rewrite Hn0, Hz. apply (good_zero Hord). }
                destruct (HO good sc Hord Hgl) as (Hg & _ & Hmax); [congruence|]. unfold back at 1. rewrite H2. split; [apply Hg; discriminate|].
                rewrite Epos, Esc. intros l Hl. unfold back at 2. rewrite H2. rewrite Hb2, <- Hb1 by auto. now apply Hmax.
        * rewrite Hb. split; [|intros [Hx _]; rewrite Hx in Hl0; destruct Hl0]. intros [Hx _]. rewrite Hx in Hl0. destruct Hl0.
  Qed.

  Lemma nodes_at_lt i : i < length G -> exists e, nth_error G i = Some e.
  Proof. apply nth_error_lt. Qed.

  Section Positions.
  Variable l : lattice S.
  Hypothesis Hbegin : forall p, p <= len -> nth_error (l_begin l) p = Some (begins G p).
  Hypothesis Hend : forall p, p <= len -> nth_error (l_end l) p = Some (ends G p).

  Lemma viterbi_positions_spec n : forall pos nodes, pos + n = len + 1 -> nodes_ok G nodes ->
    (forall i, 1 <= i < length G -> pos_of G i < pos -> solved nodes i) ->
    exists nodes' b, viterbi_positions A l nodes pos n = Ok (nodes', b) /\ nodes_ok G nodes' /\
      (b = true -> forall i, 1 <= i < length G -> pos_of G i < len + 1 -> solved nodes' i) /\
      (b = false <-> exists p, pos <= p <= len /\ begins G p <> [] /\ ends G p = []).
  Proof.
    induction n as [|n IH]; intros pos nodes Hpos Hok Hsol.
    - exists nodes, true. split; [reflexivity|]. split; [exact Hok|]. split; [intros _ i Hi Hp; apply Hsol; [exact Hi|lia]|]. split; [discriminate|]. intros (p & Hp & _). lia.
    - cbn [viterbi_positions]. rewrite (index_Some _ _ (Hbegin (p := pos) ltac:(lia))). cbn [bind].
      destruct (begins G pos) as [|r0 rs] eqn:Eb.
      + simpl. destruct (IH (pos + 1) nodes) as (nodes' & b & HE & Hok' & Hs & Hb); [lia|exact Hok| |].
        * intros i Hi Hp. destruct (Nat.eq_dec (pos_of G i) pos) as [E0|]; [|apply Hsol; lia].
          exfalso. destruct (nodes_at_lt (proj2 Hi)) as (e & He). assert (In i (begins G pos)). { apply begins_spec. split; [lia|]. exists e. unfold pos_of in E0. rewrite He in E0. auto. }
          rewrite Eb in H. destruct H.
        * exists nodes', b. splits; auto. rewrite Hb. split.
          -- intros (p & Hp & Hx). exists p. split; [lia|exact Hx].
          -- intros (p & Hp & Hx & Hy). exists p. splits; auto; [|lia]. destruct (Nat.eq_dec p pos); [congruence|lia].
      + rewrite (index_Some _ _ (Hend (p := pos) ltac:(lia))). cbn [bind]. rewrite <- Eb.
        destruct (@viterbi_rights_spec pos (begins G pos) nodes Hok (begins_NoDup G pos) (incl_refl _)) as (nodes1 & b1 & -> & Hok1 & Hsame & Hs1 & Hb1).
        { intros l0 Hl0. destruct (ends_before _ _ Hl0) as (_ & Hl & [(-> & _)|(H2 & H3)]); [now left|right]. apply Hsol; lia. }
        cbn [bind]. destruct b1.
        * destruct (IH (pos + 1) nodes1) as (nodes' & b & HE & Hok' & Hs & Hb); [lia|exact Hok1| |].
          -- intros i Hi Hp. destruct (nodes_at_lt (proj2 Hi)) as (e & He). destruct (Nat.eq_dec (pos_of G i) pos) as [E0|].
             ++ apply Hs1; [reflexivity|]. apply begins_spec. split; [lia|]. exists e. unfold pos_of in E0. rewrite He in E0. auto.
             ++ apply solved_ext with (nodes := nodes); [|apply Hsol; lia]. intros j Hj. apply Hsame. intros Hjb. apply begins_spec in Hjb as (Hj0 & ej & Hej & Hpj).
                assert (pos_of G j = pos) by (unfold pos_of; now rewrite Hej). destruct Hj as [->|Hj]; [lia|]. apply ends_before in Hj as (_ & _ & [(-> & _)|(_ & Hj)]); [congruence|]. lia.
          -- exists nodes', b. splits; auto. rewrite Hb. split.
             ++ intros (p & Hp & Hx). exists p. split; [lia|exact Hx].
             ++ intros (p & Hp & Hx & Hy). exists p. splits; auto; [|lia]. destruct (Nat.eq_dec p pos) as [->|]; [|lia].
                destruct Hb1 as [_ Hb1]. discriminate Hb1. split; [exact Hy|congruence].
        * exists nodes1, false. splits; auto; [discriminate|]. split; [intros _|auto]. exists pos. destruct Hb1 as [Hb1 _]. destruct (Hb1 eq_refl) as [H1 H2]. splits; auto; lia.
  Qed.
  End Positions.

  (** ** Paths *)
  Lemma Path_snoc p q ks k e : Path E p q ks -> nth_error E k = Some e -> s_pos e = q -> Path E p (s_end e) (ks ++ [k]).
  Proof.
    intros H Hk. induction H as [p|k0 e0 ks q Hk0 H IH]; intros Hp; simpl.
    - subst p. econstructor; [exact Hk|constructor].
    - econstructor; [exact Hk0|auto].
  Qed.
  Lemma Path_snoc_inv ks k : forall p q, Path E p q (ks ++ [k]) -> exists e, nth_error E k = Some e /\ s_end e = q /\ Path E p (s_pos e) ks.
  Proof.
    induction ks as [|k0 ks IH]; intros p q H; simpl in H; inversion H as [|k1 e ks1 q1 Hk HP]; subst.
    - inversion HP; subst. exists e. splits; auto. constructor.
    - destruct (IH _ _ HP) as (e' & H1 & H2 & H3). exists e'. splits; auto. now constructor.
  Qed.
  Lemma acc_snoc ks k e : nth_error E k = Some e -> acc A E (ks ++ [k]) = a_add A (acc A E ks) (s_score e).
  Proof. intros H. unfold acc. rewrite fold_left_app. simpl. now rewrite H. Qed.
  Lemma G_E k : nth_error G (2 + k) = nth_error E k.
  Proof. reflexivity. Qed.

  Section Solved.
  Variable nodes : list (node S).
  Hypothesis Hok : nodes_ok G nodes.
  Hypothesis Hin : Forall (fun e => s_end e <= len) E.
  Hypothesis Hsol : forall i, 1 <= i < length G -> solved nodes i.

  Lemma back_0 : back nodes 0 = a_zero A.
  Proof. destruct (proj2 Hok) as (n & Hn & _ & Hz). unfold back. now rewrite Hn. Qed.

  Lemma trace_spec : forall i n fuel results, 1 <= i < length G -> nth_error nodes i = Some n -> pos_of G i < fuel ->
    exists ks ns, Path E 0 (pos_of G i) ks /\ Forall2 (fun k n => nth_error nodes (2 + k) = Some n) ks ns /\
      trace fuel nodes i results = Ok (results ++ n :: rev ns) /\ back nodes i = a_add A (acc A E ks) (score G i).
  Proof.
    intros i. remember (pos_of G i) as p eqn:Ep. revert i Ep. induction p as [p IH] using lt_wf_ind. intros i -> n fuel results Hi Hn Hf.
    destruct fuel as [|fuel]; [lia|]. destruct (Hsol Hi) as [(l0 & H1 & H2 & H3) _]. unfold prev in H1. rewrite Hn in H1.
    cbn [trace]. rewrite (index_Some _ _ Hn). cbn [bind]. rewrite H1. destruct (ends_before _ _ H2) as (Hl1 & Hl2 & [(-> & Hp)|(Hge & Hlt)]).
    - exists [], []. rewrite Hp. splits; [constructor|constructor| |].
      + destruct (proj2 Hok) as (n0 & Hn0 & Hprev & _). destruct fuel; cbn [trace]; rewrite (index_Some _ _ Hn0); cbn [bind]; now rewrite Hprev.
      + now rewrite H3, back_0.
    - destruct (nth_error_lt nodes (i := l0)) as (nl & Hnl); [now rewrite nodes_length|].
      destruct (IH (pos_of G l0) Hlt l0 eq_refl nl fuel (results ++ [n])) as (ks & ns & HP & HF & HT & HB); [lia|exact Hnl|lia|].
      destruct l0 as [|[|k]]; [lia|lia|]. apply ends_spec in H2 as (_ & e & He & Hend). exists (ks ++ [k]), (ns ++ [nl]).
      assert (Hk : nth_error E k = Some e) by exact He. splits.
      + rewrite <- Hend. apply Path_snoc with (q := pos_of G (Datatypes.S (Datatypes.S k))); [exact HP|exact Hk|]. unfold pos_of. now rewrite He.
      + apply Forall2_app; [exact HF|]. repeat constructor. exact Hnl.
      + rewrite HT, rev_app_distr, <- app_assoc. reflexivity.
      + rewrite H3, HB. f_equal. rewrite (acc_snoc _ _ Hk). f_equal. unfold score. now rewrite He.
  Qed.

  Lemma back_max good sc : ordered good sc -> (forall j, sc (score G j)) -> forall ks i, 1 <= i < length G -> Path E 0 (pos_of G i) ks ->
    good (acc A E ks) /\ le (a_add A (acc A E ks) (score G i)) (back nodes i).
  Proof.
    intros Hord Hsc. induction ks as [|k ks IH] using rev_ind; intros i Hi HP.
    - split; [apply (good_zero Hord)|]. assert (Hp : 0 = pos_of G i) by (inversion HP; congruence). change (acc A E []) with (a_zero A). rewrite <- back_0.
      destruct (Hsol Hi) as [_ HO]. apply (HO good sc Hord Hsc). rewrite <- Hp. apply ends_spec. split; [discriminate|]. exists bos_span. split; reflexivity.
    - apply Path_snoc_inv in HP as (e & Hk & He & HP). assert (Hi2 : 1 <= 2 + k < length G).
      { split; [lia|]. apply nth_error_Some. rewrite G_E. congruence. }
      assert (Es : score G (2 + k) = s_score e) by (unfold score; now rewrite G_E, Hk).
      destruct (IH (2 + k) Hi2) as [Hg Hle]. { unfold pos_of. rewrite G_E, Hk. exact HP. }
      rewrite (acc_snoc _ _ Hk). rewrite Es in Hle.
      assert (Hg2 : good (a_add A (acc A E ks) (s_score e))) by (apply (good_add Hord); [exact Hg|rewrite <- Es; apply Hsc]).
      split; [exact Hg2|]. destruct (Hsol Hi) as [_ HO]. destruct (HO good sc Hord Hsc) as [Hgi HL].
      destruct (Hsol Hi2) as [_ HO2]. destruct (HO2 good sc Hord Hsc) as [Hg3 _].
      apply (@le_trans _ _ Hord _ (a_add A (back nodes (2 + k)) (score G i)) _); auto; try (apply (good_add Hord); auto).
      + apply (add_mono Hord); auto.
      + apply HL. apply ends_spec. split; [lia|]. exists e. now rewrite G_E.
  Qed.
  End Solved.
  End Spans.
End Structure.

Section Viterbi.
  Context {S : Type} (A : arith S).

  Lemma reachable_iff len (E : list (span S)) : (Forall (fun e => s_end e <= len) E) ->
    starts_reachable E len <-> ~ exists p, 0 <= p <= len /\ begins (all_spans A len E) p <> [] /\ ends (all_spans A len E) p = [].
  Proof.
    intros Hin. set (G := all_spans A len E).
    assert (HE0 : In 0 (ends G 0)) by (apply ends_spec; split; [discriminate|exists (bos_span A); split; reflexivity]).
    assert (HE : forall e, In e E -> exists i, In i (ends G (s_end e))).
    { intros e He. apply In_nth_error in He as [k Hk]. exists (2 + k). apply ends_spec. split; [lia|]. exists e. auto. }
    split.
    - intros [H1 H2] (p & Hp & Hb & He). destruct (begins G p) as [|i bs] eqn:Eb; [congruence|]. assert (Hi : In i (begins G p)) by (rewrite Eb; now left).
      apply begins_spec in Hi as (Hi0 & e & Hn & Hpe). assert (HX : p = 0 \/ exists e', In e' E /\ s_end e' = p).
      { destruct (@G_at S A _ _ _ _ Hn) as [(-> & _)|[(-> & ->)|(k & -> & Hk)]]; [congruence| |].
        - simpl in Hpe. subst p. exact H2.
        - apply nth_error_In in Hk. subst p. now apply H1. }
      destruct HX as [->|(e' & He' & Hp')]; [rewrite He in HE0; destruct HE0|]. destruct (HE _ He') as (j & Hj). rewrite Hp', He in Hj. destruct Hj.
    - intros H. assert (HX : forall p, p <= len -> (exists i, In i (begins G p)) -> p = 0 \/ exists e', In e' E /\ s_end e' = p).
      { intros p Hp (i & Hi). destruct (ends G p) as [|j js] eqn:Ee.
        - exfalso. apply H. exists p. splits; auto; [lia|]. intros Eb. rewrite Eb in Hi. destruct Hi.
        - assert (Hj : In j (ends G p)) by (rewrite Ee; now left). apply ends_spec in Hj as (Hj1 & e & Hn & He).
          destruct (@G_at S A _ _ _ _ Hn) as [(-> & ->)|[(-> & _)|(k & -> & Hk)]]; [left; now subst p|congruence|]. right. exists e. split; [eapply nth_error_In; eauto|exact He]. }
      split.
      + intros e He. apply HX.
        * rewrite Forall_forall in Hin. specialize (Hin e He). unfold s_end in Hin. lia.
        * apply In_nth_error in He as [k Hk]. exists (2 + k). apply begins_spec. split; [lia|]. exists e. auto.
      + apply HX; [lia|]. exists 1. apply begins_spec. split; [lia|]. exists (eos_span A len). split; reflexivity.
  Qed.

  Definition all_solved (len : nat) (E : list (span S)) (l : lattice S) : Prop :=
    forall i, 1 <= i < length (all_spans A len E) -> solved A len E (l_nodes l) i.

  Lemma viterbi_spec s E l : inv A s E l -> non_empty E ->
    exists l' r, viterbi A l = Ok (l', r) /\ inv A s E l' /\
      ((starts_reachable E (length s) /\ all_solved (length s) E l' /\
        exists ks ns n, Path E 0 (length s) ks /\ Forall2 (fun k n => nth_error (l_nodes l') (2 + k) = Some n) ks ns /\
          nth_error (l_nodes l') 1 = Some n /\ r = ns ++ [n] /\ n_back n = a_add A (acc A E ks) (a_zero A)) \/
       (~ starts_reachable E (length s) /\ r = [])).
  Proof.
    intros I Hne. set (len := length s). set (G := all_spans A len E).
    destruct (@viterbi_positions_spec S A len E Hne l (i_begin I) (i_end I) (len + 1) 0 (l_nodes l) eq_refl (i_nodes I)) as (nodes & b & HE & Hok & Hsol & Hb).
    { intros i _ Hp. lia. }
    assert (HR := reachable_iff (i_inside I)). unfold viterbi. rewrite (i_sentence I). fold len. rewrite HE. cbn [bind].
    assert (I' : inv A s E (with_nodes l nodes)). { destruct I. constructor; auto. }
    destruct b.
    - assert (Hreach : starts_reachable E len). { apply HR. intros Hx. apply Hb in Hx. discriminate. }
      assert (Hall : all_solved len E (with_nodes l nodes)).
      { intros i Hi. simpl. apply Hsol; [reflexivity|exact Hi|]. destruct (nth_error_lt _ (proj2 Hi)) as (e & He). unfold pos_of. rewrite He.
        destruct (@G_at S A _ _ _ _ He) as [(-> & _)|[(-> & ->)|(k & -> & Hk)]]; [lia|simpl; lia|].
        assert (HI := proj1 (Forall_forall _ _) (i_inside I) e (nth_error_In _ _ Hk)). cbv beta in HI. unfold s_end in HI. fold len in HI. lia. }
      rewrite (index_Some _ _ (i_begin I (Nat.le_refl len))). cbn [bind]. fold len. fold G.
      assert (Hfirst : nth_error (begins G len) 0 = Some 1).
      { unfold begins. cbn [G all_spans length seq filter]. cbn. now rewrite Nat.eqb_refl. }
      rewrite (index_Some _ _ Hfirst). cbn [bind].
      assert (H1 : nth_error G 1 = Some (eos_span A len)) by reflexivity.
      destruct (nodes_at _ _ (proj1 Hok) H1) as (n & Hn & Hsp).
      destruct (@trace_spec S A len E Hne nodes Hok Hall 1 n (length nodes + len + 1) []) as (ks & ns & HP & HF & HT & HB); [split; [lia|simpl; lia]|exact Hn| |].
      { change (len < length nodes + len + 1). lia. }
      rewrite HT. cbn [bind]. eexists _, _. split; [reflexivity|]. split; [exact I'|]. left. split; [exact Hreach|]. split; [exact Hall|].
      exists ks, ns, n. splits; auto.
      + simpl. now rewrite rev_involutive.
      + unfold back in HB. rewrite Hn in HB. exact HB.
    - eexists _, _. split; [reflexivity|]. split; [exact I'|]. right. split; [|reflexivity]. intros Hr. apply HR in Hr. apply Hr. now apply Hb.
  Qed.

  Lemma nbest_lattice l n l' r : nbest_result A l n (Ok (l', r)) -> l' = l \/ exists path, viterbi A l = Ok (l', path).
  Proof.
    intros [enough H]. specialize (H enough (le_n _)). destruct n as [|[|n]]; unfold nbest in H.
    - injection H as <- <-. now left.
    - apply bind_Ok in H as ([l2 p2] & Hv & H). injection H as <- <-. eauto.
    - apply bind_Ok in H as (h & _ & H). apply bind_Ok in H as (a & _ & H). apply bind_Ok in H as ([l2 p2] & Hv & H).
      apply bind_Ok in H as (found & _ & H). apply bind_Ok in H as (paths & _ & H). injection H as <- <-. eauto.
  Qed.

  Lemma Lat_inv s E l : Lat A s E l -> non_empty E -> inv A s E l.
  Proof.
    induction 1 as [l0 s p l p' Hp H|s E l pos id len sc l' HL IH H|s E l l' r HL IH H|s E l n l' r HL IH H]; intros Hne.
    - destruct (from_spec A l0 s Hp) as (l1 & p1 & H1 & _ & I). rewrite H in H1. injection H1 as <- <-. exact I.
    - apply Forall_app in Hne as [Hne _]. specialize (IH Hne). assert (Hle := insert_Ok _ _ _ _ IH H).
      destruct (insert_spec _ id _ sc IH Hle) as (l1 & H1 & I). rewrite H in H1. injection H1 as <-. exact I.
    - specialize (IH Hne). destruct (viterbi_spec IH Hne) as (l1 & r1 & H1 & I & _). rewrite H in H1. injection H1 as <- <-. exact I.
    - specialize (IH Hne). apply nbest_lattice in H as [->|(path & H)]; [exact IH|].
      destruct (viterbi_spec IH Hne) as (l1 & r1 & H1 & I & _). rewrite H in H1. injection H1 as <- <-. exact I.
  Qed.
End Viterbi.

(** Every list of spans can be put into a lattice. *)
Lemma Lat_exists {S} (A : arith S) s : forall E : list (span S), non_empty E -> Forall (fun e => s_end e <= length s) E -> exists l, Lat A s E l.
Proof.
  induction E as [|e E IH] using rev_ind; intros Hne Hin.
  - destruct (from_spec A lattice_new s Pool_default) as (l & p & H & _). exists l. eapply Lat_from; [constructor|exact H].
  - apply Forall_app in Hne as [Hne _]. apply Forall_app in Hin as [Hin He]. inversion He as [|? ? He' _]; subst.
    destruct (IH Hne Hin) as (l & HL). destruct (insert_spec (s_pos e) (s_id e) (s_len e) (s_score e) (Lat_inv HL Hne) He') as (l' & H & _).
    exists l'. destruct e as [p i n sc]. simpl in H. eapply Lat_insert; eauto.
Qed.
