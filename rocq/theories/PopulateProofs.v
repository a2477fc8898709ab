(** [populate_nodes], and the Viterbi search in [f64]. *)
From Coq Require Import Permutation Sorting.Sorted.
From Verif Require Import Base F64 Trie Model BaseProofs SpecModel F64Proofs ModelProofs EncodeProofs Lattice SpecLattice LatticeProofs.
Set Implicit Arguments.

(** [Thin P kept all]: [kept] is [all] without some elements, all of which satisfy [P]. *)
Inductive Thin {X} (P : X -> Prop) : list X -> list X -> Prop :=
| Thin_nil : Thin P [] []
| Thin_keep x kept all : Thin P kept all -> Thin P (x :: kept) (x :: all)
| Thin_drop x kept all : P x -> Thin P kept all -> Thin P kept (x :: all).

Lemma Thin_In {X} (P : X -> Prop) kept all x : Thin P kept all -> In x kept -> In x all.
Proof. induction 1; simpl; intuition. Qed.
Lemma Thin_keeps {X} (P : X -> Prop) kept all x : Thin P kept all -> In x all -> ~ P x -> In x kept.
Proof. induction 1; simpl; intuition. subst. tauto. Qed.
Lemma Thin_app {X} (P : X -> Prop) k1 a1 k2 a2 : Thin P k1 a1 -> Thin P k2 a2 -> Thin P (k1 ++ k2) (a1 ++ a2).
Proof. induction 1; simpl; intros; auto; constructor; auto. Qed.
Lemma Thin_NoDup {X} (P : X -> Prop) kept all : Thin P kept all -> NoDup all -> NoDup kept.
Proof.
  induction 1 as [|x kept all H IH|x kept all Hx H IH]; intros HN; inversion HN; subst; auto. constructor; auto.
  intros Hin. eapply Thin_In in Hin; eauto.
Qed.

Section Populate.
  Context {S : Type} (A : arith S) (conv : f64 -> S) (vocab : list scored_token) (Hfits : fits vocab).

  Definition to_span (pos : nat) (m : N * N) : span S :=
    Span pos (fst m) (N.to_nat (snd m)) (conv (match nth_error vocab (N.to_nat (fst m)) with Some t => st_score t | None => f0 end)).
  Definition spans_at (s : bytes) (pos : nat) : list (span S) :=
    map (to_span pos) (common_prefix_search (model_from vocab) (skipn pos s)).
  Definition all_occurrences (s : bytes) : list (span S) := flat_map (spans_at s) (seq 0 (length s)).

  Lemma spans_at_In s pos e : pos <= length s -> In e (spans_at s pos) <-> Occurs conv vocab s e /\ s_pos e = pos.
  Proof.
    intros Hpos. unfold spans_at. rewrite in_map_iff. split.
    - intros ([id len] & <- & Hin). apply (cps_In _ _ _ Hfits) in Hin as (t & r & Hl & Hne & Hs & ->). split; [|reflexivity].
      exists t, (firstn pos s), r. splits; auto.
      + now rewrite <- Hs, firstn_skipn.
      + simpl. now rewrite firstn_length_le.
      + simpl. now rewrite Nat2N.id.
      + simpl. now rewrite (proj1 Hl).
    - intros ((t & b & a & Hl & Hne & Hs & Hp & Hlen & Hsc) & Hp'). exists (s_id e, N.of_nat (length (st_value t))). split.
      + unfold to_span. cbn [fst snd]. rewrite (proj1 Hl), Nat2N.id, <- Hlen, <- Hsc, <- Hp'. now destruct e.
      + apply (cps_In _ _ _ Hfits). exists t, a. splits; auto. rewrite <- Hp', Hp, Hs, skipn_app, skipn_all, Nat.sub_diag. reflexivity.
  Qed.
  Lemma Occurs_inside s e : Occurs conv vocab s e -> 1 <= s_len e /\ s_end e <= length s.
  Proof.
    intros (t & b & a & _ & Hne & -> & Hp & Hl & _). unfold s_end. rewrite Hp, Hl, !app_length. destruct (st_value t); [congruence|simpl; lia].
  Qed.
  Lemma all_occurrences_In s e : In e (all_occurrences s) <-> Occurs conv vocab s e.
  Proof.
    unfold all_occurrences. rewrite in_flat_map. split.
    - intros (pos & Hpos & Hin). apply in_seq in Hpos. apply spans_at_In in Hin; [tauto|lia].
    - intros H. assert (HI := Occurs_inside H). unfold s_end in HI. exists (s_pos e). split; [apply in_seq; lia|]. apply spans_at_In; [lia|auto].
  Qed.

  Lemma NoDup_map_inj {X Y} (f : X -> Y) l : NoDup l -> (forall x y, In x l -> In y l -> f x = f y -> x = y) -> NoDup (map f l).
  Proof.
    induction 1 as [|x l Hx H IH]; intros Hf; simpl; constructor.
    - intros Hin. apply in_map_iff in Hin as (y & E & Hy). assert (y = x) by (apply Hf; simpl; auto). now subst y.
    - apply IH. intros; apply Hf; simpl; auto.
  Qed.
  Lemma StronglySorted_NoDup l : StronglySorted N.lt l -> NoDup l.
  Proof. induction 1 as [|x l H IH HF]; constructor; auto. intros Hin. rewrite Forall_forall in HF. apply HF in Hin. lia. Qed.
  Lemma NoDup_map_inv' {X Y} (f : X -> Y) l : NoDup (map f l) -> NoDup l.
  Proof. apply NoDup_map_inv. Qed.
  Lemma spans_at_NoDup s pos : NoDup (spans_at s pos).
  Proof.
    unfold spans_at. assert (HN : NoDup (common_prefix_search (model_from vocab) (skipn pos s))).
    { apply NoDup_map_inv with (f := snd). apply StronglySorted_NoDup. now apply cps_sorted. }
    apply NoDup_map_inj; [exact HN|]. intros [i1 l1] [i2 l2] _ _ E. injection E as -> E _. f_equal. now apply N2Nat.inj.
  Qed.
  Lemma NoDup_flat {X} (f : nat -> list X) n : forall a, (forall i, a <= i < a + n -> NoDup (f i)) ->
    (forall i j x, a <= i < a + n -> a <= j < a + n -> In x (f i) -> In x (f j) -> i = j) -> NoDup (flat_map f (seq a n)).
  Proof.
    induction n as [|n IH]; intros a H1 H2; simpl; [constructor|].
    assert (Happ : forall l1 l2 : list X, NoDup l1 -> NoDup l2 -> (forall x, In x l1 -> ~ In x l2) -> NoDup (l1 ++ l2)).
    { induction l1 as [|y l1 IHl]; simpl; intros l2 Ha Hb Hd; auto. inversion Ha; subst. constructor; [|apply IHl; auto].
      rewrite in_app_iff. intros [|Hin]; [auto|]. eapply Hd; eauto. }
    apply Happ.
    - apply H1. lia.
    - apply IH; [intros; apply H1; lia|intros i j x Hi Hj; apply H2; lia].
    - intros x Hx Hin. apply in_flat_map in Hin as (j & Hj & Hxj). apply in_seq in Hj. assert (a = j) by (eapply H2; eauto; lia). lia.
  Qed.
  Lemma all_occurrences_NoDup s : NoDup (all_occurrences s).
  Proof.
    apply NoDup_flat; [intros; apply spans_at_NoDup|]. intros i j x Hi Hj H1 H2.
    apply spans_at_In in H1; [|lia]. apply spans_at_In in H2; [|lia]. destruct H1, H2; congruence.
  Qed.
  Lemma Occurs_unique s e e' : Occurs conv vocab s e -> Occurs conv vocab s e' -> s_pos e = s_pos e' -> s_id e = s_id e' -> e = e'.
  Proof.
    intros (t & _ & _ & Ht & _ & _ & _ & Hl & Hs) (t' & _ & _ & Ht' & _ & _ & _ & Hl' & Hs') Ep Ei. destruct e, e'; simpl in *. subst.
    destruct Ht as [Ht _], Ht' as [Ht' _]. unfold token_at in *. rewrite Ht in Ht'. injection Ht' as <-. reflexivity.
  Qed.

  Variables (rnd : nat -> f64) (dropout : f64).
  Definition may_drop (e : span S) : Prop := 1 < s_len e /\ fltb f0 dropout = true /\ exists k, fltb (rnd k) dropout = true.

  Lemma populate_matches_spec s pos : forall matches E l k, Lat A s E l -> non_empty E ->
    (forall m, In m matches -> (exists t, token_at vocab (fst m) t) /\ 1 <= N.to_nat (snd m) /\ pos + N.to_nat (snd m) <= length s) ->
    exists l' k' kept, populate_matches A conv vocab rnd dropout pos matches l k = Ok (l', k') /\ Lat A s (E ++ kept) l' /\
      Thin may_drop kept (map (to_span pos) matches) /\ non_empty (E ++ kept) /\
      (fltb f0 dropout = true -> (forall k, fltb (rnd k) dropout = true) -> forall e, In e kept -> s_len e = 1).
  Proof.
    induction matches as [|[id len] matches IH]; intros E l k HL Hne Hm.
    - exists l, k, []. rewrite app_nil_r. splits; auto; [constructor|intros _ _ e []].
    - destruct (Hm _ (or_introl eq_refl)) as ((t & Ht) & Hlen & Hin). cbn [fst snd] in *. simpl. rewrite (index_Some _ _ Ht). cbn [bind].
      assert (Hm' : forall m, In m matches -> (exists t, token_at vocab (fst m) t) /\ 1 <= N.to_nat (snd m) /\ pos + N.to_nat (snd m) <= length s) by (intros m Hin'; apply Hm; now right).
      assert (Es : to_span pos (id, len) = Span pos id (N.to_nat len) (conv (st_score t))) by (unfold to_span; cbn [fst snd]; now rewrite Ht).
      set (k' := if ((1 <? len)%N && fltb f0 dropout)%bool then k + 1 else k).
      destruct ((1 <? len)%N && fltb f0 dropout && fltb (rnd k) dropout)%bool eqn:Ed.
      + apply andb_true_iff in Ed as [Ed1 Ed3]. apply andb_true_iff in Ed1 as [Ed1 Ed2].
        destruct (IH E l k' HL Hne Hm') as (l' & k2 & kept & HE & HL' & HT & Hn & HD). exists l', k2, kept. splits; auto.
        constructor; [|exact HT]. rewrite Es. unfold may_drop. cbn [s_len]. apply N.ltb_lt in Ed1. split; [lia|]. eauto.
      + destruct (insert_spec pos id (N.to_nat len) (conv (st_score t)) (Lat_inv HL Hne) Hin) as (l1 & H1 & _). rewrite H1. cbn [bind].
        destruct (IH (E ++ [to_span pos (id, len)]) l1 k') as (l' & k2 & kept & HE & HL' & HT & Hn & HD); [rewrite Es; now apply Lat_insert with (l := l)| |exact Hm'|].
        { apply Forall_app. split; [exact Hne|]. repeat constructor. rewrite Es. exact Hlen. }
        exists l', k2, (to_span pos (id, len) :: kept). rewrite <- app_assoc in HL', Hn. splits; auto; [now constructor|].
        intros Hd Hr e [<-|He]; [|now apply HD]. rewrite Es. cbn [s_len]. rewrite Hd, Hr, !andb_true_r in Ed. apply N.ltb_ge in Ed. lia.
  Qed.

  Lemma populate_positions_spec s n : forall pos E l k, pos + n = length s -> Lat A s E l -> non_empty E ->
    exists l' k' kept, populate_positions A conv (model_from vocab) rnd dropout (skipn pos s) pos l k = Ok (l', k') /\ Lat A s (E ++ kept) l' /\
      Thin may_drop kept (flat_map (spans_at s) (seq pos n)) /\ non_empty (E ++ kept) /\
      (fltb f0 dropout = true -> (forall k, fltb (rnd k) dropout = true) -> forall e, In e kept -> s_len e = 1).
  Proof.
    induction n as [|n IH]; intros pos E l k Hpos HL Hne.
    - rewrite skipn_all2 by lia. exists l, k, []. simpl. rewrite app_nil_r. splits; auto; [constructor|intros _ _ e []].
    - destruct (skipn pos s) as [|b r] eqn:Es. { assert (H := skipn_length pos s). rewrite Es in H. simpl in H. lia. }
      cbn [populate_positions]. rewrite model_from_vocab. rewrite <- Es.
      destruct (@populate_matches_spec s pos (common_prefix_search (model_from vocab) (skipn pos s)) E l k HL Hne) as (l1 & k1 & kept1 & H1 & HL1 & HT1 & Hn1 & HD1).
      { intros [id len] Hin. assert (Hsp : In (to_span pos (id, len)) (spans_at s pos)) by (unfold spans_at; apply in_map_iff; eauto).
        apply spans_at_In in Hsp as [HO _]; [|lia]. assert (HI := Occurs_inside HO). destruct HO as (t & _ & _ & [Ht _] & _). unfold s_end in HI. simpl in *. eauto. }
      rewrite H1. cbn [bind]. assert (Er : r = skipn (pos + 1) s). { clear - Es. revert s Es. induction pos as [|pos IHp]; intros [|c s] Es; try discriminate; [now injection Es|]. now apply IHp in Es. }
      rewrite Er. destruct (IH (pos + 1) (E ++ kept1) l1 k1) as (l' & k' & kept & HE & HL' & HT & Hn & HD); [lia|exact HL1|exact Hn1|].
      exists l', k', (kept1 ++ kept). rewrite <- app_assoc in HL', Hn. replace (Datatypes.S pos) with (pos + 1) in * by lia. splits; auto.
      + simpl. replace (Datatypes.S pos) with (pos + 1) by lia. now apply Thin_app.
      + intros Hd Hr e He. apply in_app_iff in He as [He|He]; auto.
  Qed.

  Lemma populate_spec s l k : Lat A s [] l ->
    exists l' k' E, populate_nodes A conv (model_from vocab) rnd dropout l k = Ok (l', k') /\ Lat A s E l' /\ non_empty E /\ Thin may_drop E (all_occurrences s) /\
      (fltb f0 dropout = true -> (forall k, fltb (rnd k) dropout = true) -> forall e, In e E -> s_len e = 1).
  Proof.
    intros HL. unfold populate_nodes. rewrite (i_sentence (Lat_inv HL ltac:(constructor))).
    destruct (@populate_positions_spec s (length s) 0 [] l k eq_refl HL ltac:(constructor)) as (l' & k' & E & H1 & H2 & H3 & H4 & H5).
    exists l', k', E. splits; auto.
  Qed.
End Populate.

(** * [f64] *)
From Coq Require Import Reals Lra.
From Flocq Require Import Core BinarySingleNaN.
Local Open Scope nat_scope.

Lemma fadd_0_r x : f_is_nan x = false -> fleb (fadd x f0) x = true /\ fleb x (fadd x f0) = true.
Proof.
  intros Hn. destruct (is_finite x) eqn:Fx.
  - assert (H := @Bplus_correct prec64 emax64 _ _ mode_NE x f0 Fx eq_refl).
    change (B2R f0) with 0%R in H. rewrite Rplus_0_r in H.
    rewrite round_generic in H; [|apply valid_rnd_N|apply generic_format_B2R].
    rewrite Rlt_bool_true in H by apply abs_B2R_lt_emax. destruct H as (H1 & H2 & _).
    change (Bplus mode_NE x f0) with (fadd x f0) in *.
    split; rewrite fleb_finite by assumption; apply Rle_bool_true; rewrite H1; apply Rle_refl.
  - destruct x as [|[]| |]; try discriminate; split; reflexivity.
Qed.

Lemma fleb_feqb x y : fleb x y = true -> fleb y x = true -> feqb x y = true.
Proof.
  intros H1 H2. destruct (is_finite x) eqn:Fx, (is_finite y) eqn:Fy.
  - rewrite fleb_finite in H1, H2 by assumption. unfold feqb. rewrite Beqb_correct by assumption.
    destruct (Rle_bool_spec (B2R x) (B2R y)); [|discriminate]. destruct (Rle_bool_spec (B2R y) (B2R x)); [|discriminate]. apply Req_bool_true. now apply Rle_antisym.
  - destruct x as [|[]| |], y as [|[]| |]; try discriminate.
  - destruct x as [|[]| |], y as [|[]| |]; try discriminate.
  - destruct x as [|[]| |], y as [|[]| |]; try discriminate; reflexivity.
Qed.

Lemma f64_ordered e l : ordered (f64_arith e l) (fun x => f_is_nan x = false) (fun w => is_finite w = true).
Proof.
  assert (HL : forall x y, f_is_nan x = false -> f_is_nan y = false -> le (f64_arith e l) x y <-> fleb x y = true).
  { intros x y Hx Hy. unfold le. simpl. rewrite fltb_fleb by assumption. now rewrite negb_false_iff. }
  constructor; try reflexivity; simpl.
  - intros x w Hx Hw. now apply fadd_not_nan.
  - intros x Hx. apply HL; auto. now apply fleb_refl.
  - intros x y z Hx Hy Hz H1 H2. apply HL in H1; auto. apply HL in H2; auto. apply HL; auto. eapply fleb_trans; eauto.
  - intros x y Hx Hy H. apply HL; auto. now apply fltb_fleb_weak.
  - intros x y w Hx Hy Hw H. apply HL in H; auto. apply HL; try (now apply fadd_not_nan). now apply fadd_mono_l.
Qed.
Lemma f64_le e l x y : f_is_nan x = false -> f_is_nan y = false -> le (f64_arith e l) x y <-> fleb x y = true.
Proof. intros Hx Hy. unfold le. simpl. rewrite fltb_fleb by assumption. now rewrite negb_false_iff. Qed.


Lemma Path_spans {S} (E : list (span S)) p q ks : Path E p q ks -> Forall2 (fun k e => nth_error E k = Some e) ks (spans_of E ks).
Proof. induction 1 as [|k e ks q Hk H IH]; simpl; [constructor|]. rewrite Hk. simpl. constructor; auto. Qed.

Lemma nodes_of_path {S} (A : arith S) len (E : list (span S)) nodes p q ks ns : nodes_ok A (all_spans A len E) nodes -> Path E p q ks ->
  Forall2 (fun k n => nth_error nodes (2 + k) = Some n) ks ns -> map span_of ns = spans_of E ks.
Proof.
  intros [HG _] HP. revert ns. induction HP as [|k e ks q Hk HP IH]; intros ns HF; inversion HF; subst; [reflexivity|].
  simpl. rewrite Hk. simpl. f_equal; [|auto]. assert (Hn := nodes_at' _ _ HG H1). simpl in Hn. rewrite Hk in Hn. congruence.
Qed.

Lemma viterbi_best e l s E lat : Lat (f64_arith e l) s E lat -> non_empty E -> (forall x, In x E -> f_is_finite (s_score x) = true) ->
  starts_reachable E (length s) ->
  exists lat' ns n ks, viterbi (f64_arith e l) lat = Ok (lat', ns ++ [n]) /\ Path E 0 (length s) ks /\ map span_of ns = spans_of E ks /\
    span_of n = Span (length s) eos_id 0 f0 /\ feqb (n_back n) (acc (f64_arith e l) E ks) = true /\
    forall ks', Path E 0 (length s) ks' -> fleb (acc (f64_arith e l) E ks') (acc (f64_arith e l) E ks) = true.
Proof.
  intros HL Hne Hfin HR. set (A := f64_arith e l) in *. assert (I := Lat_inv HL Hne).
  destruct (viterbi_spec I Hne) as (lat' & r & Hv & I' & [(_ & Hall & ks & ns & n & HP & HF & Hn & -> & Hb)|(HN & _)]); [|contradiction].
  exists lat', ns, n, ks. split; [exact Hv|]. split; [exact HP|]. split; [eapply nodes_of_path; [exact (i_nodes I')|exact HP|exact HF]|].
  assert (Hsn : span_of n = eos_span A (length s)).
  { assert (H1 := nodes_at' _ _ (proj1 (i_nodes I')) Hn). change (Some (eos_span A (length s)) = Some (span_of n)) in H1. congruence. }
  split; [exact Hsn|].
  assert (Hsc : forall j, is_finite (score A (all_spans A (length s) E) j) = true).
  { intros j. unfold score. destruct (nth_error _ j) as [x|] eqn:Ex; [|reflexivity].
    destruct (@G_at _ A _ _ _ _ Ex) as [(_ & ->)|[(_ & ->)|(k & _ & Hk)]]; try reflexivity. apply Hfin. eapply nth_error_In; eauto. }
  assert (Hi : 1 <= 1 < length (all_spans A (length s) E)) by (simpl; lia).
  assert (HM : forall ks', Path E 0 (length s) ks' -> f_is_nan (acc A E ks') = false /\ le A (fadd (acc A E ks') f0) (n_back n)).
  { intros ks' HP'. destruct (@back_max _ A _ _ _ (i_nodes I') Hall _ _ (f64_ordered e l) Hsc ks' 1 Hi HP') as [H1 H2]. split; [exact H1|].
    unfold back in H2. rewrite Hn in H2. exact H2. }
  destruct (HM ks HP) as [Hnan _].
  assert (Hnb : f_is_nan (n_back n) = false) by (rewrite Hb; now apply fadd_not_nan).
  destruct (fadd_0_r _ Hnan) as [Ha Hb']. change (n_back n = fadd (acc A E ks) f0) in Hb. rewrite <- Hb in Ha, Hb'.
  split.
  - now apply fleb_feqb.
  - intros ks' HP'. destruct (HM ks' HP') as [Hn' H]. apply f64_le in H; auto; [|now apply fadd_not_nan].
    eapply fleb_trans; [apply (proj2 (fadd_0_r _ Hn'))|]. eapply fleb_trans; [exact H|exact Ha].
Qed.

(** Paths through all occurrences are the cuts into tokens. *)
Section Cuts.
  Context {S : Type} (conv : f64 -> S) (vocab : list scored_token).
  Variables (s : bytes) (E : list (span S)).

  Lemma Path_Cut : (forall e, In e E -> Occurs conv vocab s e) -> forall p ks, Path E p (length s) ks -> p <= length s ->
    Cut vocab (ids_of E ks) (skipn p s).
  Proof.
    intros HE p ks H. remember (length s) as q eqn:Eq. induction H as [p|k e ks q Hk H IH]; intros Hp; simpl.
    - subst p. rewrite skipn_all. constructor.
    - unfold ids_of in *. simpl. rewrite Hk. simpl. assert (HO := HE e (nth_error_In _ _ Hk)). destruct (Occurs_inside HO) as [_ Hi]. specialize (IH Eq ltac:(lia)).
      destruct HO as (t & b & a & Ht & Hne & Hs & Hpos & Hlen & _).
      assert (E1 : skipn (s_pos e) s = st_value t ++ a) by (rewrite Hs, Hpos, skipn_app, skipn_all, Nat.sub_diag; reflexivity).
      assert (E2 : skipn (s_end e) s = a).
      { unfold s_end. rewrite Hs, Hpos, Hlen, app_assoc, <- app_length, skipn_app, skipn_all, Nat.sub_diag. reflexivity. }
      rewrite E1. rewrite E2 in IH. now constructor.
  Qed.
  Lemma Cut_Path : (forall e, Occurs conv vocab s e -> In e E) -> forall ids p, Cut vocab ids (skipn p s) -> p <= length s ->
    exists ks, Path E p (length s) ks /\ ids_of E ks = ids.
  Proof.
    intros HE ids. induction ids as [|id ids IH]; intros p HC Hp.
    - assert (Hsk := skipn_length p s). assert (E0 : skipn p s = []) by (inversion HC; reflexivity). rewrite E0 in Hsk. simpl in Hsk. replace p with (length s) by lia. exists []. split; [constructor|reflexivity].
    - inversion HC as [|id0 t ids0 r Ht Hne HC' E1 E2]; subst.
      set (e := Span p id (length (st_value t)) (conv (st_score t))).
      assert (HO : Occurs conv vocab s e). { exists t, (firstn p s), r. splits; auto; [|simpl; now rewrite firstn_length_le]. now rewrite E2, firstn_skipn. }
      assert (HI := Occurs_inside HO). apply HE in HO. apply In_nth_error in HO as [k Hk].
      assert (Er : r = skipn (s_end e) s).
      { unfold s_end. simpl. rewrite <- (firstn_skipn p s) at 1. rewrite <- E2, app_assoc. replace (p + length (st_value t)) with (length (firstn p s ++ st_value t)) by (rewrite app_length, firstn_length_le; lia).
        rewrite skipn_app, skipn_all, Nat.sub_diag. reflexivity. }
      rewrite Er in HC'. destruct (IH (s_end e) HC' ltac:(lia)) as (ks & HP & Hids). exists (k :: ks). split.
      + change p with (s_pos e). econstructor; eauto.
      + unfold ids_of in *. simpl. rewrite Hk. simpl. now rewrite Hids.
  Qed.
End Cuts.
Lemma acc_score_of e l vocab s E : (forall x, In x E -> Occurs (fun y : f64 => y) vocab s x) -> forall ks,
  acc (f64_arith e l) E ks = score_of vocab (ids_of E ks).
Proof.
  intros HE ks. unfold acc, score_of, ids_of. simpl a_zero. generalize f0 as x. induction ks as [|k ks IH]; intros x; [reflexivity|]. simpl.
  rewrite IH. destruct (nth_error E k) as [sp|] eqn:Ek; [|reflexivity]. simpl. f_equal. unfold add_score.
  destruct (HE sp (nth_error_In _ _ Ek)) as (t & _ & _ & [Ht _] & _ & _ & _ & _ & Hs). unfold token_at in Ht. now rewrite Ht, Hs.
Qed.
