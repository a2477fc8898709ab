(** The E-step in exact arithmetic. *)
From Coq Require Import Reals Lra Permutation.
From Flocq Require Import IEEE754.BinarySingleNaN.
From Verif Require Import Base BaseProofs F64 Model SpecModel EncodeProofs Par ParProofs Lattice SpecLattice LatticeProofs PopulateProofs RealArith SpecMarginal MarginalProofs
  PropLattice PropMarginal Prune PruneProofs SpecPrune.
Set Implicit Arguments.
Local Open Scope nat_scope.

Lemma max_pos : 1 <= max_sample_length.
Proof. unfold max_sample_length. assert (H : (1 <= 81920)%N) by discriminate. revert H. generalize 81920%N. intros n H. lia. Qed.
Opaque max_sample_length.

Lemma chunks_loop_pieces {A} c : 1 <= c -> forall fuel (l : list A), length l <= fuel -> forall k p, nth_error (chunks_loop fuel c l) k = Some p ->
  1 <= length p <= c /\ (S k < length (chunks_loop fuel c l) -> length p = c).
Proof.
  intros Hc. induction fuel as [|fuel IH]; intros l Hl k p Hk; [destruct k; discriminate|]. destruct l as [|a l]; [destruct k; discriminate|].
  assert (Hl' : length (skipn c (a :: l)) <= fuel) by (rewrite skipn_length; cbn [length] in *; lia).
  cbn [chunks_loop] in *. destruct k as [|k]; cbn [nth_error] in Hk.
  - injection Hk as <-. rewrite firstn_length. cbn [length] in *. split; [lia|]. intros H. destruct (Nat.le_gt_cases c (S (length l))) as [Hcl|Hcl]; [lia|].
    rewrite skipn_all2 in H by (cbn [length]; lia). destruct fuel; simpl in H; lia.
  - destruct (IH _ Hl' _ _ Hk) as [H1 H2]. split; [exact H1|]. intros H. apply H2. cbn [length] in H. lia.
Qed.
Lemma chunks_pieces c s : 1 <= c -> pieces c s (chunks c s).
Proof. intros Hc. split; [now apply chunks_concat|]. intros k p. now apply chunks_loop_pieces. Qed.

Section EStep.
  Variable vocab : list scored_token.
  Hypothesis Hfits : fits vocab.
  Let m := model_from vocab.
  Let conv : f64 -> R := @B2R prec64 emax64.

  Lemma path_ids_R s E : (forall e, In e E -> Occurs conv vocab s e) -> NoDup (map (fun e => (s_pos e, s_id e)) E) ->
    forall q ks p p' ks', Path E p q ks -> Path E p' q ks' -> ids_of E ks = ids_of E ks' -> ks = ks' /\ p = p'.
  Proof.
    intros HE HND q. induction ks as [|k ks IH]; intros p p' ks' HP HP' Hids.
    - destruct ks' as [|k' ks']; [split; [reflexivity|]; inversion HP; inversion HP'; congruence|]. inversion HP' as [|? e' ? ? He']; subst.
      unfold ids_of, spans_of in Hids. cbn [flat_map] in Hids. rewrite He' in Hids. discriminate.
    - inversion HP as [|? e ? ? He HP1]; subst. destruct ks' as [|k' ks'].
      + unfold ids_of, spans_of in Hids. cbn [flat_map] in Hids. rewrite He in Hids. discriminate.
      + inversion HP' as [|? e' ? ? He' HP1']; subst. unfold ids_of, spans_of in Hids. cbn [flat_map] in Hids. rewrite He, He' in Hids. cbn [app map] in Hids. injection Hids as Hid Hids.
        destruct (IH _ _ _ HP1 HP1' Hids) as [-> Hend].
        destruct (HE _ (nth_error_In _ _ He)) as (t & b & a & [Ht _] & _ & _ & _ & Hl & _). destruct (HE _ (nth_error_In _ _ He')) as (t' & b' & a' & [Ht' _] & _ & _ & _ & Hl' & _).
        rewrite Hid in Ht. unfold token_at in Ht, Ht'. assert (t = t') by congruence. subst t'. unfold s_end in Hend. assert (Hpos : s_pos e = s_pos e') by lia. split; [|exact Hpos]. f_equal.
        eapply (proj1 (NoDup_nth_error _) HND).
        * rewrite map_length. apply nth_error_Some. congruence.
        * rewrite (map_nth_error _ _ _ He), (map_nth_error _ _ _ He'). congruence.
  Qed.

  (** Every byte is a token, so every position is reached and left. *)
  Lemma covers_occurs s p : covers vocab s -> p < length s -> exists e, Occurs conv vocab s e /\ s_pos e = p /\ s_end e = p + 1.
  Proof.
    intros Hc Hp. destruct (nth_error s p) as [b|] eqn:Eb; [|apply nth_error_None in Eb; lia].
    apply nth_error_split in Eb as (b1 & b2 & Es & Hl). unfold covers in Hc. rewrite Forall_forall in Hc.
    destruct (Hc b) as (t & Ht & Hv); [rewrite Es; apply in_elt|]. destruct (latest_exists _ _ Ht) as (id & t' & Hlat & Hv').
    exists (Span p id 1 (conv (st_score t'))). split; [|split; reflexivity]. exists t', b1, b2. rewrite Hv', Hv. cbn [s_pos s_id s_len s_score app length].
    repeat split; try apply Hlat; try discriminate; auto.
  Qed.

  Lemma covers_reachable s E : covers vocab s -> (forall e, In e E <-> Occurs conv vocab s e) -> starts_reachable E (length s) /\ ends_continued E (length s).
  Proof.
    intros Hc HE. assert (HB : forall p, p < length s -> exists e, In e E /\ s_pos e = p /\ s_end e = p + 1).
    { intros p Hp. destruct (covers_occurs Hc Hp) as (e & He & H). exists e. split; [now apply HE|exact H]. }
    split; split.
    - intros e He. apply HE in He. apply Occurs_inside in He as [H1 H2]. destruct (s_pos e) as [|p] eqn:Ep; [now left|right].
      unfold s_end in H2. destruct (HB p ltac:(lia)) as (e' & He' & _ & Hend). exists e'. split; [exact He'|lia].
    - destruct (length s) as [|n] eqn:En; [now left|right]. destruct (HB n ltac:(lia)) as (e' & He' & _ & Hend). exists e'. split; [exact He'|lia].
    - intros e He. apply HE in He. apply Occurs_inside in He as [H1 H2]. destruct (Nat.eq_dec (s_end e) (length s)) as [Hx|Hx]; [now left|right].
      destruct (HB (s_end e) ltac:(lia)) as (e' & He' & Hpos & _). exists e'. split; [exact He'|lia].
    - destruct (length s) as [|n] eqn:En; [now left|right]. destruct (HB 0 ltac:(lia)) as (e' & He' & Hpos & _). exists e'. split; [exact He'|lia].
  Qed.

  Lemma occurrences_bound s E : (forall e, In e E -> Occurs conv vocab s e) -> NoDup (map (fun e => (s_pos e, s_id e)) E) ->
    length E <= length s * length vocab.
  Proof.
    intros HE HND. rewrite <- (map_length (fun e => (s_pos e, s_id e)) E).
    replace (length s * length vocab) with (length (list_prod (seq 0 (length s)) (map N.of_nat (seq 0 (length vocab))))) by (rewrite prod_length, map_length, !seq_length; reflexivity).
    apply NoDup_incl_length; [exact HND|]. intros x Hx. apply in_map_iff in Hx as (e & <- & He). apply HE in He. apply in_prod.
    - apply Occurs_inside in He as [H1 H2]. unfold s_end in H2. apply in_seq. lia.
    - destruct He as (t & _ & _ & [Ht _] & _). apply in_map_iff. exists (N.to_nat (s_id e)). split; [apply N2Nat.id|]. apply in_seq.
      assert (N.to_nat (s_id e) < length vocab) by (apply nth_error_Some; unfold token_at in Ht; congruence). lia.
  Qed.

  Lemma total_score s E p q ks : (forall e, In e E -> Occurs conv vocab s e) -> Path E p q ks -> total E ks = real_score vocab (ids_of E ks).
  Proof.
    intros HE. induction 1 as [p|k e ks q Hk H IH]; [reflexivity|]. rewrite (total_cons _ Hk), IH. unfold ids_of, spans_of. cbn [flat_map]. rewrite Hk. cbn [app map].
    unfold real_score. rewrite sum_cons. f_equal. destruct (HE _ (nth_error_In _ _ Hk)) as (t & _ & _ & [Ht _] & _ & _ & _ & _ & ->). unfold token_at in Ht. now rewrite Ht.
  Qed.

  (** The relative error of one piece. *)
  Variable size : nat.
  Let err : R := (INR (size * length vocab) * epsilon)%R.

  Lemma epsilon_pos : (0 < epsilon)%R.
  Proof. apply exp_pos. Qed.
  Lemma average_nonneg id L : (0 <= average_uses vocab id L)%R.
  Proof.
    apply MarginalProofs.sum_nonneg. intros ids Hin. apply Rmult_le_pos; [apply pos_INR|]. apply Rlt_le, Rdiv_lt_0_compat; [apply exp_pos|].
    apply sum_pos; [intros x _; apply exp_pos|]. intros ->. contradiction.
  Qed.

  Lemma piece_spec s l0 expected rnd dropout k L : Lat R_arith s [] l0 -> fltb f0 dropout = false -> covers vocab s -> length s <= size -> length expected = length vocab -> all_cuts vocab s L ->
    exists l expected' z, populate_nodes R_arith conv m rnd dropout l0 k = Ok (l, k) /\ populate_marginal R_arith l expected = Ok (expected', z) /\ length expected' = length vocab /\
      forall i, i < length vocab ->
        let added := (nth i expected' 0 - nth i expected 0)%R in
        (exp (- err) * average_uses vocab (N.of_nat i) L <= added <= exp err * average_uses vocab (N.of_nat i) L)%R.
  Proof.
    intros HL0 Hd Hc Hsize Hlen [HN HC].
    destruct (@C38_no_dropout R R_arith conv vocab rnd dropout s l0 k Hfits Hd HL0) as (l & E & HP & HL & HND & HE).
    assert (HE1 : forall e, In e E -> Occurs conv vocab s e) by (intros e; apply HE). assert (HE2 : forall e, Occurs conv vocab s e -> In e E) by (intros e; apply HE).
    assert (Hne : non_empty E) by (apply Forall_forall; intros e He; apply HE1 in He; now apply Occurs_inside in He).
    assert (Hin := i_inside (Lat_inv HL Hne)). destruct (@covers_reachable s E Hc HE) as [HR HCo].
    assert (HEn : enumerates (rpaths E (S (length s)) (length s)) (Path E 0 (length s))).
    { destruct (F_enum Hne Hin (length s)) as [H1 H2]. split; [exact H1|]. intros ks. rewrite H2. now apply from_root_complete. }
    set (P := rpaths E (S (length s)) (length s)) in *.
    assert (Hid : forall e, In e E -> N.to_nat (s_id e) < length expected).
    { intros e He. destruct (HE1 _ He) as (t & _ & _ & [Ht _] & _). rewrite Hlen. apply nth_error_Some. unfold token_at in Ht. congruence. }
    destruct (@C42_marginals s E l expected P HL Hne Hid HR HCo HEn) as (expected' & z & Hrun & Hlen' & _ & _ & Hb).
    exists l, expected', z. split; [exact HP|]. split; [exact Hrun|]. split; [congruence|]. intros i Hi added.
    specialize (Hb (N.of_nat i)). rewrite Nat2N.id, Hlen in Hb. specialize (Hb Hi). cbv zeta in Hb. fold added in Hb.
    assert (HPerm : Permutation (map (ids_of E) P) L).
    { apply NoDup_Permutation; [|exact HN|].
      - destruct HEn as [HEn1 HEn2]. assert (HF : Forall (Path E 0 (length s)) P) by (apply Forall_forall; intros ks; apply HEn2).
        clear - HEn1 HF HE1 HND. induction HEn1 as [|ks P Hni _ IH]; [constructor|]. inversion HF as [|? ? Hp HF']; subst. cbn [map]. constructor; [|auto].
        intros Hx. apply in_map_iff in Hx as (ks' & Hk & Hx). rewrite Forall_forall in HF'. destruct (path_ids_R HE1 HND (HF' _ Hx) Hp Hk) as [-> _]. contradiction.
      - intros ids. rewrite HC, in_map_iff. split.
        + intros (ks & <- & Hks). apply HEn in Hks. change s with (skipn 0 s). eapply Path_Cut; [exact HE1|exact Hks|lia].
        + intros Hcut. change s with (skipn 0 s) in Hcut. destruct (@Cut_Path _ conv vocab s E HE2 ids 0 Hcut (Nat.le_0_l _)) as (ks & Hks & <-). exists ks. split; [reflexivity|]. now apply HEn. }
    assert (HW : forall ks, In ks P -> weight E ks = cut_weight vocab (ids_of E ks)).
    { intros ks Hks. apply HEn in Hks. unfold weight, cut_weight. now rewrite (total_score HE1 Hks). }
    assert (HZ : sum (weight E) P = sum (cut_weight vocab) L).
    { rewrite <- (sum_perm _ HPerm), sum_map. now apply sum_ext. }
    assert (HA : average_uses vocab (N.of_nat i) L = sum (fun ks => occurrences E (N.of_nat i) ks * (weight E ks / sum (weight E) P))%R P).
    { unfold average_uses. rewrite <- HZ, <- (sum_perm _ HPerm), sum_map. apply sum_ext. intros ks Hks. unfold occurrences. now rewrite (HW _ Hks). }
    rewrite <- HA in Hb. assert (Hx := average_nonneg (N.of_nat i) L).
    assert (HB : (INR (length E) * epsilon <= err)%R).
    { unfold err. apply Rmult_le_compat_r; [apply Rlt_le, epsilon_pos|]. apply le_INR. assert (H := @occurrences_bound s E HE1 HND). nia. }
    assert (Hmono : forall a b, (a <= b -> exp a <= exp b)%R) by (intros a b [Hab| ->]; [left; now apply exp_increasing|right; reflexivity]).
    assert (H1 := Hmono _ _ HB). assert (H2 := Hmono (- err)%R (- (INR (length E) * epsilon))%R ltac:(lra)). nra.
  Qed.

  Lemma cuts_exist s : covers vocab s -> exists L, all_cuts vocab s L.
  Proof.
    intros Hc. assert (Hp : Pool (pool_with_capacity max_sample_length 16)) by constructor.
    destruct (@from_spec R R_arith lattice_new s _ Hp) as (l0 & p1 & Hf & _). assert (HL0 : Lat R_arith s [] l0) by exact (@Lat_from _ _ _ _ _ _ _ Hp Hf).
    destruct (@C38_no_dropout R R_arith conv vocab (fun _ => f0) f0 s l0 0 Hfits eq_refl HL0) as (l & E & HP & HL & HND & HE).
    assert (HE1 : forall e, In e E -> Occurs conv vocab s e) by (intros e; apply HE). assert (HE2 : forall e, Occurs conv vocab s e -> In e E) by (intros e; apply HE).
    assert (Hne : non_empty E) by (apply Forall_forall; intros e He; apply HE1 in He; now apply Occurs_inside in He).
    assert (Hin := i_inside (Lat_inv HL Hne)). destruct (@covers_reachable s E Hc HE) as [HR HCo].
    exists (map (ids_of E) (rpaths E (S (length s)) (length s))).
    assert (HEn : enumerates (rpaths E (S (length s)) (length s)) (Path E 0 (length s))).
    { destruct (F_enum Hne Hin (length s)) as [H1 H2]. split; [exact H1|]. intros ks. rewrite H2. now apply from_root_complete. }
    set (P := rpaths E (S (length s)) (length s)) in *. split.
    - destruct HEn as [HEn1 HEn2]. assert (HF : Forall (Path E 0 (length s)) P) by (apply Forall_forall; intros ks; apply HEn2).
      clear - HEn1 HF HE1 HND. induction HEn1 as [|ks P Hni _ IH]; [constructor|]. inversion HF as [|? ? Hp HF']; subst. cbn [map]. constructor; [|auto].
      intros Hx. apply in_map_iff in Hx as (ks' & Hk & Hx). rewrite Forall_forall in HF'. destruct (path_ids_R HE1 HND (HF' _ Hx) Hp Hk) as [-> _]. contradiction.
    - intros ids. rewrite in_map_iff. split.
      + intros (ks & <- & Hks). apply HEn in Hks. change s with (skipn 0 s). eapply Path_Cut; [exact HE1|exact Hks|lia].
      + intros Hcut. change s with (skipn 0 s) in Hcut. destruct (@Cut_Path _ conv vocab s E HE2 ids 0 Hcut (Nat.le_0_l _)) as (ks & Hks & <-). exists ks. split; [reflexivity|]. now apply HEn.
  Qed.

  (** The same for a list of pieces. *)
  Definition within (lo hi : R) (before after : list R) (avg : nat -> R) : Prop :=
    length after = length vocab /\
    forall i, i < length vocab -> let added := (nth i after 0 - nth i before 0)%R in (lo * avg i <= added <= hi * avg i)%R.
  Definition uses (Ls : list (list (list N))) (i : nat) : R := sum (average_uses vocab (N.of_nat i)) Ls.

  Lemma within_trans lo hi a b c f g : within lo hi a b f -> within lo hi b c g -> within lo hi a c (fun i => (f i + g i)%R).
  Proof.
    intros [_ H1] [Hl H2]. split; [exact Hl|]. intros i Hi. specialize (H1 i Hi). specialize (H2 i Hi). cbv zeta in *. nra.
  Qed.
  Lemma within_ext lo hi a b f g : (forall i, f i = g i) -> within lo hi a b f -> within lo hi a b g.
  Proof. intros H [Hl Hb]. split; [exact Hl|]. intros i Hi. rewrite <- H. now apply Hb. Qed.

  Variables (normal : R -> bool) (c : prune_cfg).
  Hypothesis Hdrop : fltb f0 (pc_dropout c) = false.

  Lemma snippets_spec rnd ps : forall l p k expected Ls, Pool p -> Forall (covers vocab) ps -> Forall (fun s => length s <= size) ps -> length expected = length vocab ->
    Forall2 (all_cuts vocab) ps Ls ->
    e_snippets R_arith conv normal c m rnd ps l p k expected = Panic /\ (exists z, normal z = false) \/
    exists l' p' expected', e_snippets R_arith conv normal c m rnd ps l p k expected = Ok (l', p', k, expected') /\ Pool p' /\
      within (exp (- err)) (exp err) expected expected' (uses Ls).
  Proof.
    induction ps as [|s ps IH]; intros l p k expected Ls Hp Hc Hs Hlen HF; inversion HF as [|? L ? Ls' HL HF']; subst.
    - right. exists l, p, expected. split; [reflexivity|]. split; [exact Hp|]. split; [exact Hlen|]. intros i Hi. cbv zeta. unfold uses. rewrite sum_nil. lra.
    - inversion Hc as [|? ? Hcs Hc']; subst. inversion Hs as [|? ? Hss Hs']; subst. cbn [e_snippets].
      destruct (@from_spec R R_arith l s p Hp) as (l1 & p1 & Hf & Hp1 & _). rewrite Hf. cbn [bind].
      assert (HL1 : Lat R_arith s [] l1) by exact (@Lat_from _ _ _ _ _ _ _ Hp Hf).
      destruct (@piece_spec s l1 expected rnd (pc_dropout c) k L HL1 Hdrop Hcs Hss Hlen HL) as (l2 & e2 & z & HP & HM & Hl2 & Hb). rewrite HP. cbn [bind]. rewrite HM. cbn [bind].
      destruct (normal z) eqn:Ez; [|left; eauto].
      destruct (IH l2 p1 k e2 Ls' Hp1 Hc' Hs' Hl2 HF') as [H|(l' & p' & e' & H & Hp' & HW)]; [now left|right]. exists l', p', e'. split; [exact H|]. split; [exact Hp'|].
      apply within_ext with (f := fun i => (average_uses vocab (N.of_nat i) L + uses Ls' i)%R); [intros i; reflexivity|].
      eapply within_trans; [split; [exact Hl2|exact Hb]|exact HW].
  Qed.
End EStep.

Section Whole.
  Variable vocab : list scored_token.
  Hypothesis Hfits : fits vocab.
  Let m := model_from vocab.
  Let conv : f64 -> R := @B2R prec64 emax64.
  Let err : R := (INR (max_sample_length * length vocab) * epsilon)%R.
  Variables (normal : R -> bool) (c : prune_cfg) (threads : nat).
  Hypothesis Hdrop : fltb f0 (pc_dropout c) = false.

  Definition snippets (s : bytes) : list bytes := chunks max_sample_length s.
  Lemma snippets_pieces s : pieces max_sample_length s (snippets s).
  Proof. apply chunks_pieces, max_pos. Qed.
  Lemma snippets_sizes s : Forall (fun x => length x <= max_sample_length) (snippets s).
  Proof. apply Forall_forall. intros x Hx. apply In_nth_error in Hx as [k Hk]. now apply (proj2 (snippets_pieces s)) in Hk. Qed.
  Lemma covers_snippets s : covers vocab s -> Forall (covers vocab) (snippets s).
  Proof.
    intros H. destruct (snippets_pieces s) as [E _]. apply Forall_forall. intros p Hp. unfold covers in *. rewrite Forall_forall in *. intros b Hb. apply H. rewrite <- E. apply in_concat. eauto.
  Qed.

  Lemma samples_spec rnd ss : forall l p k expected Lss, Pool p -> Forall (covers vocab) ss -> length expected = length vocab ->
    Forall2 (fun s Ls => Forall2 (all_cuts vocab) (snippets s) Ls) ss Lss ->
    e_samples R_arith conv normal c m rnd ss l p k expected = Panic /\ (exists z, normal z = false) \/
    exists expected', e_samples R_arith conv normal c m rnd ss l p k expected = Ok expected' /\
      within vocab (exp (- err)) (exp err) expected expected' (uses vocab (concat Lss)).
  Proof.
    induction ss as [|s ss IH]; intros l p k expected Lss Hp Hc Hlen HF; inversion HF as [|? Ls ? Lss' HL HF']; subst.
    - right. exists expected. split; [reflexivity|]. split; [exact Hlen|]. intros i Hi. cbv zeta. unfold uses. cbn [concat]. rewrite sum_nil. lra.
    - inversion Hc as [|? ? Hcs Hc']; subst. cbn [e_samples]. fold (snippets s).
      assert (Hsz : Forall (fun x => length x <= max_sample_length) (snippets s)).
      { apply snippets_sizes. }
      destruct (@snippets_spec vocab Hfits max_sample_length normal c Hdrop rnd (snippets s) l p k expected Ls Hp (covers_snippets Hcs) Hsz Hlen HL)
        as [[H1 H2]|(l' & p' & e' & H1 & Hp' & HW)]; fold m conv in H1; rewrite H1; cbn [bind]; [now left|].
      destruct (IH l' p' k e' Lss' Hp' Hc' (proj1 HW) HF') as [H|(e2 & H & HW2)]; [now left|right]. exists e2. split; [exact H|].
      apply within_ext with (f := fun i => (uses vocab Ls i + uses vocab (concat Lss') i)%R); [intros i; unfold uses; cbn [concat]; now rewrite sum_app|].
      eapply within_trans; eassumption.
  Qed.

  Lemma chunk_spec rnd ss Lss : Forall (covers vocab) ss -> Forall2 (fun s Ls => Forall2 (all_cuts vocab) (snippets s) Ls) ss Lss ->
    e_chunk R_arith conv normal c m rnd ss = Panic /\ (exists z, normal z = false) \/
    exists local, e_chunk R_arith conv normal c m rnd ss = Ok local /\ length local = length vocab /\
      forall i, i < length vocab -> (exp (- err) * uses vocab (concat Lss) i <= nth i local 0 <= exp err * uses vocab (concat Lss) i)%R.
  Proof.
    intros Hc HF. unfold e_chunk. destruct (@samples_spec rnd ss lattice_new (pool_with_capacity max_sample_length 16) 0 (repeat 0%R (vocab_size m)) Lss) as [H|(e & H & Hl & HW)]; auto.
    - constructor.
    - rewrite repeat_length. unfold vocab_size, m. now rewrite ModelProofs.model_from_vocab.
    - right. exists e. split; [exact H|]. split; [exact Hl|]. intros i Hi. specialize (HW i Hi). cbv zeta in HW. rewrite nth_repeat in HW. lra.
  Qed.

  Lemma zip_add_nth_R accs : forall xs i, length accs = length xs -> nth i (zip_add Rplus accs xs) 0%R = (nth i accs 0 + nth i xs 0)%R.
  Proof.
    induction accs as [|a accs IH]; intros [|x xs] i H; try discriminate; simpl; [destruct i; lra|]. destruct i as [|i]; [reflexivity|]. apply IH. simpl in H. lia.
  Qed.
  Lemma zip_adds_nth_R n ls : Forall (fun l => length l = n) ls -> forall accs i, length accs = n ->
    nth i (fold_left (zip_add Rplus) ls accs) 0%R = (nth i accs 0 + sum (fun l => nth i l 0%R) ls)%R.
  Proof.
    induction 1 as [|l ls Hl _ IH]; intros accs i Ha; cbn [fold_left]; [rewrite sum_nil; lra|]. rewrite IH by now rewrite zip_add_length. rewrite zip_add_nth_R, sum_cons by congruence. lra.
  Qed.

  Lemma Forall2_chunks {X Y} (R : X -> Y -> Prop) (cs : list (list X)) : forall ys, Forall2 R (concat cs) ys -> exists yss, ys = concat yss /\ Forall2 (Forall2 R) cs yss.
  Proof.
    induction cs as [|x cs IH]; intros ys H; cbn [concat] in H.
    - inversion H; subst. exists []. split; [reflexivity|constructor].
    - apply Forall2_app_inv_l in H as (y1 & y2 & H1 & H2 & ->). destruct (IH _ H2) as (yss & -> & HF). exists (y1 :: yss). split; [reflexivity|]. now constructor.
  Qed.

  Lemma sum_locals (Q : nat -> R) lo hi i (cs : list (list bytes)) (LL : list (list (list (list (list N))))) locals :
    length locals = length LL -> (forall j local Lss, nth_error locals j = Some local -> nth_error LL j = Some Lss -> (lo * uses vocab (concat Lss) i <= nth i local 0 <= hi * uses vocab (concat Lss) i)%R) ->
    (lo * uses vocab (concat (concat LL)) i <= sum (fun l => nth i l 0%R) locals <= hi * uses vocab (concat (concat LL)) i)%R.
  Proof.
    clear. revert LL. induction locals as [|l locals IH]; intros [|Lss LL] Hl H; try discriminate.
    - cbn [concat]. unfold uses. rewrite !sum_nil. lra.
    - rewrite sum_cons. cbn [concat]. rewrite concat_app. unfold uses. rewrite sum_app. specialize (IH LL ltac:(simpl in Hl; lia) (fun j => H (S j))).
      assert (H0 := H 0 l Lss eq_refl eq_refl). unfold uses in *. nra.
  Qed.

  Lemma cuts_exist_all ss : Forall (covers vocab) ss -> exists Lss, Forall2 (fun s Ls => Forall2 (all_cuts vocab) (snippets s) Ls) ss Lss.
  Proof.
    induction 1 as [|s ss Hs _ IH]; [exists []; constructor|]. destruct IH as [Lss HF]. apply covers_snippets in Hs.
    assert (HL : exists Ls, Forall2 (all_cuts vocab) (snippets s) Ls).
    { induction Hs as [|x xs Hx _ IHx]; [exists []; constructor|]. destruct IHx as [Ls HFx]. destruct (@cuts_exist vocab Hfits x Hx) as [L HL]. exists (L :: Ls). now constructor. }
    destruct HL as [Ls HL]. exists (Ls :: Lss). now constructor.
  Qed.

  Lemma estep_total samples : Forall (covers vocab) samples -> (forall z, normal z = true) -> exists freqs, estep_result R_arith conv normal threads c m samples (Ok freqs).
  Proof.
    intros Hc Hn. set (cs := chunks (par_chunk_size threads (length samples) 8) samples).
    assert (Hcov : forall x, In x cs -> Forall (covers vocab) x).
    { intros x Hx. apply Forall_forall. intros s Hs. rewrite Forall_forall in Hc. apply Hc.
      rewrite <- (chunks_concat samples (par_chunk_pos threads (length samples) 8)). apply in_concat. eauto. }
    assert (HL : exists locals, Forall2 (fun chunk local => e_chunk R_arith conv normal c m (fun _ => f0) chunk = Ok local) cs locals).
    { revert Hcov. generalize cs. clear cs. induction cs as [|x cs IH]; intros Hcov; [exists []; constructor|].
      destruct (cuts_exist_all (Hcov x (or_introl eq_refl))) as [Lss HF]. destruct (@chunk_spec (fun _ => f0) x Lss (Hcov x (or_introl eq_refl)) HF) as [[_ [z Hz]]|(local & Hr & _)]; [rewrite Hn in Hz; discriminate|].
      destruct IH as [locals HLs]; [intros y Hy; apply Hcov; now right|]. exists (local :: locals). now constructor. }
    destruct HL as [locals HL]. eexists. apply e_step_ok with (rnds := fun _ _ => f0) (locals := locals) (order := locals); [symmetry; exact (Forall2_len HL)| |reflexivity].
    fold cs. intros i chunk local. revert i. induction HL as [|x y xs ys Hxy _ IH]; intros [|i] H1 H2; try discriminate; simpl in *; [congruence|eapply IH; eauto; intros z Hz; apply Hcov; now right].
  Qed.

  Lemma estep_spec samples r : Forall (covers vocab) samples -> estep_result R_arith conv normal threads c m samples r ->
    r = Panic /\ (exists z, normal z = false) \/
    exists freqs, r = Ok freqs /\ length freqs = length vocab /\
      forall Lss, Forall2 (fun s Ls => Forall2 (all_cuts vocab) (snippets s) Ls) samples Lss ->
      forall i, i < length vocab -> (exp (- err) * uses vocab (concat Lss) i <= nth i freqs 0 <= exp err * uses vocab (concat Lss) i)%R.
  Proof.
    intros Hc H. assert (Hcs : forall cs, cs = chunks (par_chunk_size threads (length samples) 8) samples -> concat cs = samples /\ forall x, In x cs -> Forall (covers vocab) x).
    { intros cs ->. split; [apply chunks_concat, par_chunk_pos|]. intros x Hx. apply Forall_forall. intros s Hs. rewrite Forall_forall in Hc. apply Hc.
      rewrite <- (chunks_concat samples (par_chunk_pos threads (length samples) 8)). apply in_concat. eauto. }
    inversion H as [rnds locals order cs Hl Hloc HP|rnd chunk Hin HE]; subst.
    - right. eexists. split; [reflexivity|]. change (a_add R_arith) with Rplus. change (a_zero R_arith) with 0%R.
      assert (Hm : vocab_size m = length vocab) by (unfold vocab_size, m; now rewrite ModelProofs.model_from_vocab).
      split; [rewrite zip_adds_length, repeat_length; exact Hm|]. intros Lss HF i Hi.
      destruct (Hcs cs eq_refl) as [Econ Hcov]. rewrite <- Econ in HF. apply Forall2_chunks in HF as (LL & -> & HF).
      assert (HLL : length LL = length cs) by (symmetry; exact (Forall2_len HF)).
      assert (Hlocal : forall j local Lss, nth_error locals j = Some local -> nth_error LL j = Some Lss -> length local = length vocab /\
         (exp (- err) * uses vocab (concat Lss) i <= nth i local 0 <= exp err * uses vocab (concat Lss) i)%R).
      { intros j local Lss Hj HLj. destruct (nth_error cs j) as [chunk|] eqn:Ec.
        2: { apply nth_error_None in Ec. assert (j < length LL) by (apply nth_error_Some; congruence). lia. }
        assert (HFj : Forall2 (fun s Ls => Forall2 (all_cuts vocab) (snippets s) Ls) chunk Lss).
        { clear - HF Ec HLj. revert j Ec HLj. induction HF as [|x y cs LL Hxy _ IH]; intros [|j] Ec HLj; try discriminate; simpl in *; [congruence|eauto]. }
        assert (Hrun := Hloc j chunk local Ec Hj). destruct (@chunk_spec (rnds j) chunk Lss (Hcov _ (nth_error_In _ _ Ec)) HFj) as [[Hp _]|(local' & Hp & Hll & Hb)]; rewrite Hrun in Hp; [discriminate|].
        injection Hp as <-. split; [exact Hll|]. now apply Hb. }
      assert (Hlens : Forall (fun l => length l = length vocab) order).
      { apply Forall_forall. intros l Hlin. apply (Permutation_in _ (Permutation_sym HP)) in Hlin. apply In_nth_error in Hlin as [j Hj].
        destruct (nth_error LL j) as [Lss|] eqn:EL; [eapply Hlocal; eassumption|]. apply nth_error_None in EL. assert (j < length locals) by (apply nth_error_Some; congruence). lia. }
      rewrite (zip_adds_nth_R Hlens) by (rewrite repeat_length; exact Hm). rewrite nth_repeat, Rplus_0_l, <- (sum_perm _ HP).
      eapply (sum_locals (fun _ => 0%R)); [exact cs|congruence|]. intros j local Lss Hj HLj. eapply Hlocal; eassumption.
    - left. split; [reflexivity|]. destruct (Hcs _ eq_refl) as [_ Hcov]. specialize (Hcov _ Hin).
      destruct (cuts_exist_all Hcov) as (Lss & HF). destruct (@chunk_spec rnd chunk Lss Hcov HF) as [[_ Hz]|(local & Hp & _)]; [exact Hz|congruence].
  Qed.
End Whole.
