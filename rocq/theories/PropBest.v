(** Property C69: what rounding does to the choice of the best cut. *)
From Coq Require Import Reals Psatz Permutation Sorted.
From Flocq Require Import Core BinarySingleNaN.
From Verif Require Import Base F64 Trie Model SpecModel BaseProofs F64Proofs EncodeProofs ModelProofs TokenizerProofs Lattice SpecLattice LatticeProofs PopulateProofs HeapProofs NbestSearch NbestProofs NbestAll PropNbest SpecMarginal MarginalProofs SpecPrune FloatErr FloatSum SpecBest FloatPath NbestFloat.
Set Implicit Arguments.
Local Open Scope nat_scope.

Lemma cut_short vocab ids s : Cut vocab ids s -> length ids <= length s.
Proof. induction 1 as [|id t ids s H1 H2 H3 IH]; [simpl; lia|]. rewrite app_length. destruct (st_value t); [congruence|]. simpl. lia. Qed.
Lemma fleb_le a b : is_finite a = true -> is_finite b = true -> fleb a b = true -> (B2R a <= B2R b)%R.
Proof. intros Fa Fb H. rewrite fleb_finite in H by assumption. destruct (Rle_bool_spec (B2R a) (B2R b)); [assumption|discriminate]. Qed.

(** ** Encoding: no cut is better than the one returned by more than the slack, when scores are added without rounding. *)
Theorem C69_encode : forall vocab rnd s dropout ids S, fits vocab -> scores_within vocab S -> (0 <= S <= bpow radix2 900)%R ->
  (N.of_nat (length s + 1) <= 2 ^ 52)%N -> fleb dropout f0 = true -> encode (model_from vocab) rnd s dropout = Ok ids ->
  forall ids', Cut vocab ids' s -> (real_score vocab ids' <= real_score vocab ids + slack (length s + 1) S)%R.
Proof.
  intros vocab rnd s dropout ids S Hf HV HS HN Hd He ids' HC. assert (Hfin : finite_scores vocab) by (apply Forall_forall; intros t Ht; now apply HV).
  assert (Hle := encode_optimal Hf rnd dropout Hfin Hd He HC). assert (HC0 := encode_sound Hf rnd _ _ He).
  assert (HX : forall ids, Cut vocab ids s -> is_finite (score_of vocab ids) = true /\ (Rabs (B2R (score_of vocab ids) - real_score vocab ids) <= slack (length s + 1) S / 2)%R).
  { intros is Hc. apply cut_short in Hc. destruct (@approx_score (length s + 1) S HN HS vocab is HV 1 f0 0%R (@approx_zero _ _ HN HS) ltac:(lia)) as (k & Hk & Ha).
    rewrite Rplus_0_l in Ha. split; [apply Ha|]. eapply approx_slack; [exact HS|exact Ha|lia]. }
  destruct (HX _ HC) as [F1 B1]. destruct (HX _ HC0) as [F2 B2]. apply fleb_le in Hle; auto. apply Rabs_le_inv in B1, B2. lra.
Qed.
Print Assumptions C69_encode.
(** A cut that is better than all others by more than the slack is returned. *)
Theorem C69_clear_winner : forall vocab rnd s dropout best S, fits vocab -> scores_within vocab S -> (0 <= S <= bpow radix2 900)%R ->
  (N.of_nat (length s + 1) <= 2 ^ 52)%N -> fleb dropout f0 = true -> Cut vocab best s ->
  (forall ids', Cut vocab ids' s -> ids' <> best -> (real_score vocab ids' + slack (length s + 1) S < real_score vocab best)%R) ->
  encode (model_from vocab) rnd s dropout = Ok best.
Proof.
  intros vocab rnd s dropout best S Hf HV HS HN Hd HC Hbest. destruct (@encode_complete vocab Hf rnd s dropout Hd (ex_intro _ _ HC)) as (ids & He). rewrite He. f_equal.
  assert (Hc := encode_sound Hf rnd _ _ He). destruct (list_eq_dec N.eq_dec ids best) as [->|Hx]; [reflexivity|exfalso]. specialize (Hbest ids Hc Hx).
  assert (H := @C69_encode _ rnd s dropout _ _ Hf HV HS HN Hd He _ HC). lra.
Qed.
Print Assumptions C69_clear_winner.

(** Without slack this is false: "abbb" is cut into four tokens although the token for all of it is better. *)
Definition rb_vocab : list scored_token := [ST [x61] (f64_of_Z (-1)) false; ST [x62] (f64_of_Z_exp (-3) (-55)) false; ST [x61; x62; x62; x62] (f64_of_Z_exp (-4503599627370497) (-52)) false].
Lemma rb_scores : B2R (f64_of_Z (-1)) = (-1)%R /\ B2R (f64_of_Z_exp (-3) (-55)) = (-3 / 36028797018963968)%R /\ B2R (f64_of_Z_exp (-4503599627370497) (-52)) = (-4503599627370497 / 4503599627370496)%R.
Proof.
  split; [|split].
  - rewrite <- SF2R_B2SF. replace (B2SF (f64_of_Z (-1))) with (SpecFloat.S754_finite true 4503599627370496 (-52)) by (vm_compute; reflexivity). unfold SF2R, F2R. simpl. lra.
  - rewrite <- SF2R_B2SF. replace (B2SF (f64_of_Z_exp (-3) (-55))) with (SpecFloat.S754_finite true 6755399441055744 (-106)) by (vm_compute; reflexivity). unfold SF2R, F2R. simpl. lra.
  - rewrite <- SF2R_B2SF. replace (B2SF (f64_of_Z_exp (-4503599627370497) (-52))) with (SpecFloat.S754_finite true 4503599627370497 (-52)) by (vm_compute; reflexivity). unfold SF2R, F2R. simpl. lra.
Qed.
Lemma rb_within : scores_within rb_vocab 2.
Proof.
  destruct rb_scores as (E1 & E2 & E3). intros t [<-|[<-|[<-|[]]]]; cbn [st_score]; rewrite ?E1, ?E2, ?E3; (split; [vm_compute; reflexivity|apply Rabs_le; lra]).
Qed.
Lemma rb_latest id t : nth_error rb_vocab (N.to_nat id) = Some t -> latest rb_vocab id t.
Proof.
  intros H. split; [exact H|]. intros id' t' Hlt H'. unfold token_at in H'.
  destruct (N.to_nat id) as [|[|[|k]]] eqn:E1, (N.to_nat id') as [|[|[|k']]] eqn:E2; try lia; cbn in H, H'; try (injection H as <-); try (injection H' as <-); try discriminate; try (destruct k; discriminate); try (destruct k'; discriminate).
Qed.
Theorem C69_exact_refuted : exists vocab rnd s ids ids', fits vocab /\ scores_within vocab 2 /\ (N.of_nat (length s + 1) <= 2 ^ 52)%N /\
  encode (model_from vocab) rnd s f0 = Ok ids /\ Cut vocab ids' s /\ (real_score vocab ids < real_score vocab ids')%R.
Proof.
  exists rb_vocab, (fun _ => f0), [x61; x62; x62; x62], [0; 1; 1; 1]%N, [2]%N. splits.
  - split; [reflexivity|]. repeat constructor.
  - exact rb_within.
  - vm_compute. discriminate.
  - vm_compute. reflexivity.
  - apply (@Cut_cons rb_vocab 2%N (ST [x61; x62; x62; x62] (f64_of_Z_exp (-4503599627370497) (-52)) false) [] []); [apply rb_latest; reflexivity|discriminate|constructor].
  - destruct rb_scores as (E1 & E2 & E3). unfold real_score. rewrite !sum_cons, !sum_nil. change (nth_error rb_vocab (N.to_nat 0)) with (nth_error rb_vocab 0). change (nth_error rb_vocab (N.to_nat 1)) with (nth_error rb_vocab 1).
    change (nth_error rb_vocab (N.to_nat 2)) with (nth_error rb_vocab 2). cbn [nth_error rb_vocab st_score]. rewrite E1, E2, E3. lra.
Qed.
Print Assumptions C69_exact_refuted.

(** ** The Viterbi search in lattices. *)
Theorem C69_viterbi : forall e ln s E lat S, Lat (f64_arith e ln) s E lat -> non_empty E -> spans_within E S -> (0 <= S <= bpow radix2 900)%R ->
  (N.of_nat (length s + 1) <= 2 ^ 52)%N -> starts_reachable E (length s) ->
  exists lat' ns n ks, viterbi (f64_arith e ln) lat = Ok (lat', ns ++ [n]) /\ Path E 0 (length s) ks /\ map span_of ns = spans_of E ks /\
    (Rabs (B2R (n_back n) - exact_score E ks) <= slack (length s + 1) S / 2)%R /\
    forall ks', Path E 0 (length s) ks' -> (exact_score E ks' <= exact_score E ks + slack (length s + 1) S)%R.
Proof.
  intros e ln s E lat S HL Hne HE HS HN HR. destruct (viterbi_best HL Hne (fun x Hx => proj1 (HE x Hx)) HR) as (lat' & ns & n & ks & Hv & HP & Hsp & _ & Hb & Hmax).
  exists lat', ns, n, ks. assert (HX : forall ks, Path E 0 (length s) ks -> is_finite (acc (f64_arith e ln) E ks) = true /\ (Rabs (B2R (acc (f64_arith e ln) E ks) - exact_score E ks) <= slack (length s + 1) S / 2)%R).
  { intros ks' HP'. assert (Hl := path_short Hne HP'). assert (Ha := @approx_acc e ln E (length s + 1) S HN HS HE ks' ltac:(lia)). split; [apply Ha|]. eapply approx_slack; [exact HS|exact Ha|lia]. }
  destruct (HX _ HP) as [F B]. splits; auto.
  - assert (Fb : is_finite (n_back n) = true) by (destruct (n_back n) as [|[]| |], (acc (f64_arith e ln) E ks) as [|[]| |]; try discriminate; reflexivity).
    unfold feqb in Hb. rewrite (Beqb_correct prec64 emax64 _ _ Fb F) in Hb. destruct (Req_bool_spec (B2R (n_back n)) (B2R (acc (f64_arith e ln) E ks))) as [->|]; [exact B|discriminate].
  - intros ks' HP'. destruct (HX _ HP') as [F' B']. specialize (Hmax ks' HP'). apply fleb_le in Hmax; auto. apply Rabs_le_inv in B, B'. lra.
Qed.
Print Assumptions C69_viterbi.

(** ** The search for the [n] best paths, in lattices that are small enough for the agenda not to be cut. *)
Theorem C69_nbest : forall e ln s E l n l' paths S, Lat (f64_arith e ln) s E l -> non_empty E -> Forall (fun e => (s_id e < bos_id)%N) E -> starts_reachable E (length s) ->
  2 <= n -> spans_within E S -> (0 <= S <= bpow radix2 900)%R -> (N.of_nat (length s + 2) <= 2 ^ 52)%N ->
  (forall L, NoDup L -> Forall (fun ks => exists p, Path E p (length s) ks) L -> (N.of_nat (length L) <= 50000)%N) ->
  nbest_result (f64_arith e ln) l n (Ok (l', paths)) ->
  exists kss, map (map span_of) paths = map (spans_of E) kss /\ Forall (fun ks => Path E 0 (length s) ks) kss /\ NoDup kss /\ length kss <= n /\
    StronglySorted (fun ks ks' => (exact_score E ks' <= exact_score E ks + slack (length s + 2) S)%R) kss /\
    forall p, Path E 0 (length s) p -> In p kss \/ length kss = n /\ forall ks, In ks kss -> (exact_score E p <= exact_score E ks + slack (length s + 2) S)%R.
Proof.
  intros e ln s E l n l' paths S HL Hne Hid HR Hn HE HS HN Hfew Hr. assert (I := Lat_inv HL Hne). set (A := f64_arith e ln) in *.
  destruct (viterbi_spec I Hne) as (l1 & r1 & Hv & I1 & [(_ & Hsol & _)|(HX & _)]); [|contradiction].
  destruct (nodes_at _ _ (proj1 (i_nodes I)) (eq_refl : nth_error (all_spans A (length s) E) 1 = Some (eos_span A (length s)))) as (eos & He & Hes).
  assert (Hf : first_hypothesis l = Ok (Hyp 1 [] (n_score eos) (n_score eos))) by (unfold first_hypothesis; now rewrite (index_Some _ _ He)).
  assert (Hsc : n_score eos = f0) by (change (n_score eos) with (s_score (span_of eos)); now rewrite Hes).
  assert (Hfirst : near e ln s E l1 S (Hyp 1 [] (n_score eos) (n_score eos))) by (rewrite Hsc; split; [reflexivity|]; left; repeat split).
  apply (@nbest_by_search_keeping _ A s E l n HL Hne Hid Hn True (near e ln s E l1 S)) in Hr.
  2: { intros _ hs. apply near_ordered. }
  2: { intros l2 path Hv2. rewrite Hv in Hv2. injection Hv2 as <- _. now apply near_keeps. }
  2: { intros _ h Hh. rewrite Hf in Hh. injection Hh as <-. exact Hfirst. }
  remember (Ok (l', paths)) as x eqn:Ex. destruct Hr as [| |n H0 H|n h H0 H H1|n h l2 path r2 H0 H1 H2 H3]; try lia; try discriminate.
  rewrite Hv in H2. injection H2 as <- <-. rewrite Hf in H1. injection H1 as <-. set (h := Hyp 1 [] (n_score eos) (n_score eos)) in *.
  assert (Hok : ok_search A s E n (Running [h] [])) by (eapply ok_first; [lia|exact Hf]).
  assert (HB : near_search e ln s E l1 S n (Running [h] [])).
  { split; [constructor|].
    - constructor; [exact Hfirst|constructor].
    - right. left. now exists h.
    - intros f h0 p [].
    - constructor.
    - intros ks _. right. exists h. split; [now left|]. exists (0 :: idx ks). reflexivity. }
  destruct (ok_runs I1 Hne Hid Hok H3) as (found & -> & HC & HND & Hlen). destruct (near_runs I1 Hne Hid Hsol HN HS HE Hfew Hok HB H3) as (found' & Ef & HSo & HA). injection Ef as <-.
  destruct (complete_paths HC) as (kss & -> & HP). destruct (collect_spec I1 HP) as (paths' & Hc & Hs). cbn [bind] in Ex. rewrite Hc in Ex. cbn [bind] in Ex. injection Ex as <- <-.
  exists kss. rewrite map_length in Hlen. splits; auto.
  - now apply NoDup_map_inv in HND.
  - clear - HSo. induction kss as [|ks kss IH]; [constructor|]. simpl in HSo. inversion HSo as [|? ? H1 H2]; subst. constructor; [auto|].
    apply Forall_forall. intros ks' Hk. rewrite Forall_forall in H2. exact (H2 (idx ks') (in_map _ _ _ Hk) ks' eq_refl ks eq_refl).
  - intros p HPp. rewrite map_length in HA. destruct (HA p HPp) as [Hin|(Hl & Hb)].
    + left. apply in_map_iff in Hin as (q & Hq & Hin). apply idx_inj in Hq. now subst q.
    + right. split; [exact Hl|]. intros ks Hk. exact (Hb (idx ks) (in_map _ _ _ Hk) ks eq_refl).
Qed.
Print Assumptions C69_nbest.

(** ** Examples *)
(** "ab" can be cut into "a", "b" or be one token: the first cut is better by 1. *)
Definition rb_small : list scored_token := [ST [x61] (f64_of_Z (-1)) false; ST [x62] (f64_of_Z (-2)) false; ST [x61; x62] (f64_of_Z (-4)) false].
Lemma small_slack n : (INR n <= 10)%R -> (slack n 4 < / 2)%R.
Proof. intros H. unfold slack. assert (P := pos_INR n). assert (INR n * INR n <= 100)%R by nra. lra. Qed.
Lemma rb_small_cuts ids : Cut rb_small ids [x61; x62] -> ids = [0; 1]%N \/ ids = [2]%N.
Proof.
  assert (HT : forall id t, latest rb_small id t -> id = 0%N /\ st_value t = [x61] \/ id = 1%N /\ st_value t = [x62] \/ id = 2%N /\ st_value t = [x61; x62]).
  { intros id t [H _]. unfold token_at in H. destruct (N.to_nat id) as [|[|[|k]]] eqn:Ei; cbn in H; try (injection H as <-; simpl); [left|right; left|right; right|destruct k; discriminate]; (split; [lia|reflexivity]). }
  assert (HC : forall ids s, Cut rb_small ids s -> s = [] /\ ids = [] \/ exists id t is s', ids = id :: is /\ s = st_value t ++ s' /\ latest rb_small id t /\ Cut rb_small is s').
  { intros is s H. destruct H; [left; auto|right]. repeat eexists; eauto; apply H. }
  intros H. apply HC in H as [(H & _)|(id & t & is & s' & -> & Hs & Ht & H)]; [discriminate|]. destruct (HT _ _ Ht) as [(-> & Hv)|[(-> & Hv)|(-> & Hv)]]; rewrite Hv in Hs; simpl in Hs; [|discriminate|].
  - injection Hs as <-. apply HC in H as [(H & _)|(id & t' & is' & s'' & -> & Hs & Ht' & H)]; [discriminate|]. destruct (HT _ _ Ht') as [(-> & Hv')|[(-> & Hv')|(-> & Hv')]]; rewrite Hv' in Hs; simpl in Hs; try discriminate.
    injection Hs as <-. apply HC in H as [(_ & ->)|(id & t2 & is2 & s2 & -> & Hs & Ht2 & H)]; [now left|]. destruct (HT _ _ Ht2) as [(_ & Hv2)|[(_ & Hv2)|(_ & Hv2)]]; rewrite Hv2 in Hs; discriminate.
  - injection Hs as <-. apply HC in H as [(_ & ->)|(id & t2 & is2 & s2 & -> & Hs & Ht2 & H)]; [now right|]. destruct (HT _ _ Ht2) as [(_ & Hv2)|[(_ & Hv2)|(_ & Hv2)]]; rewrite Hv2 in Hs; discriminate.
Qed.
Lemma rb_real z : (Z.abs z <= 4)%Z -> f_is_finite (f64_of_Z z) = true /\ B2R (f64_of_Z z) = IZR z.
Proof. intros H. apply of_Z_exact. apply Z.le_trans with (1 := H). vm_compute. discriminate. Qed.
Example C69_example : fits rb_small /\ scores_within rb_small 4 /\ (0 <= 4 <= bpow radix2 900)%R /\ Cut rb_small [0; 1]%N [x61; x62] /\ Cut rb_small [2]%N [x61; x62] /\
  (forall ids', Cut rb_small ids' [x61; x62] -> ids' <> [0; 1]%N -> (real_score rb_small ids' + slack 3 4 < real_score rb_small [0; 1]%N)%R).
Proof.
  destruct (@rb_real (-1) ltac:(lia)) as [F1 E1]. destruct (@rb_real (-2) ltac:(lia)) as [F2 E2]. destruct (@rb_real (-4) ltac:(lia)) as [F3 E3].
  assert (HL : forall id t, nth_error rb_small (N.to_nat id) = Some t -> latest rb_small id t).
  { intros id t H. split; [exact H|]. intros id' t' Hlt H'. unfold token_at in H'.
    destruct (N.to_nat id) as [|[|[|k]]] eqn:Ea, (N.to_nat id') as [|[|[|k']]] eqn:Eb; try lia; cbn in H, H'; try (injection H as <-); try (injection H' as <-); try discriminate; try (destruct k; discriminate); try (destruct k'; discriminate). }
  splits.
  - split; [reflexivity|]. repeat constructor.
  - intros t [<-|[<-|[<-|[]]]]; cbn [st_score]; rewrite ?E1, ?E2, ?E3; (split; [assumption|apply Rabs_le; lra]).
  - lra.
  - change 4%R with (bpow radix2 2). apply bpow_le. lia.
  - apply (@Cut_cons rb_small 0%N (ST [x61] (f64_of_Z (-1)) false) [1%N] [x62]); [now apply HL|discriminate|].
    apply (@Cut_cons rb_small 1%N (ST [x62] (f64_of_Z (-2)) false) [] []); [now apply HL|discriminate|constructor].
  - apply (@Cut_cons rb_small 2%N (ST [x61; x62] (f64_of_Z (-4)) false) [] []); [now apply HL|discriminate|constructor].
  - intros ids' HC Hx. apply rb_small_cuts in HC as [->| ->]; [congruence|]. assert (Hs := @small_slack 3 ltac:(simpl; lra)). unfold real_score. rewrite !sum_cons, !sum_nil.
    change (nth_error rb_small (N.to_nat 0)) with (nth_error rb_small 0). change (nth_error rb_small (N.to_nat 1)) with (nth_error rb_small 1).
    change (nth_error rb_small (N.to_nat 2)) with (nth_error rb_small 2). cbn [nth_error rb_small st_score]. rewrite E1, E2, E3. lra.
Qed.
Definition rb_spans : list (span f64) := [Span 0 0%N 1 (f64_of_Z (-1)); Span 1 1%N 1 (f64_of_Z (-2)); Span 0 2%N 2 (f64_of_Z (-4))].
Lemma rb_tails p ks : Path rb_spans p 2 ks -> In ks [[]; [1]; [0; 1]; [2]] /\ (p = 0 -> ks = [0; 1] \/ ks = [2]).
Proof.
  assert (HI : forall p q k ks, Path rb_spans p q (k :: ks) -> exists e, nth_error rb_spans k = Some e /\ s_pos e = p /\ Path rb_spans (s_end e) q ks).
  { intros p0 q k ks0 H. inversion H; subst; eauto. }
  assert (HF : forall p k e, nth_error rb_spans k = Some e -> s_pos e = p -> p = 0 /\ (k = 0 /\ s_end e = 1 \/ k = 2 /\ s_end e = 2) \/ p = 1 /\ k = 1 /\ s_end e = 2).
  { intros p0 [|[|[|k]]] e He <-; cbn [nth_error rb_spans] in He; try (injection He as <-); cbn; auto. destruct k; discriminate. }
  assert (HX : forall ks, Path rb_spans 2 2 ks -> ks = []).
  { intros [|k ks0] H; [reflexivity|]. apply HI in H as (e & H1 & H2 & _). destruct (HF _ _ _ H1 H2) as [[H _]|[H _]]; discriminate. }
  assert (H1 : forall ks, Path rb_spans 1 2 ks -> ks = [1]).
  { intros ks0 H. destruct ks0 as [|k ks0]; [inversion H|]. apply HI in H as (e & H1 & H2 & H3). destruct (HF _ _ _ H1 H2) as [(H & _)|(_ & -> & E2)]; [discriminate|]. rewrite E2 in H3. now rewrite (HX _ H3). }
  intros H. destruct ks as [|k ks]; [split; [now left|intros ->; inversion H]|]. apply HI in H as (e & H2 & H3 & H4).
  destruct (HF _ _ _ H2 H3) as [(-> & [(-> & E1)|(-> & E1)])|(-> & -> & E1)]; rewrite E1 in H4.
  - rewrite (H1 _ H4). simpl. auto 6.
  - rewrite (HX _ H4). simpl. auto 6.
  - rewrite (HX _ H4). simpl. split; [auto|discriminate].
Qed.
Example C69_nbest_example : forall e ln, exists l l' paths, Lat (f64_arith e ln) [x61; x62] rb_spans l /\ non_empty rb_spans /\ Forall (fun e => (s_id e < bos_id)%N) rb_spans /\
  starts_reachable rb_spans 2 /\ spans_within rb_spans 4 /\ (forall L, NoDup L -> Forall (fun ks => exists p, Path rb_spans p 2 ks) L -> (N.of_nat (length L) <= 50000)%N) /\
  nbest_result (f64_arith e ln) l 2 (Ok (l', paths)) /\ map (map (fun n => n_token_id n)) paths = [[0%N; 1%N]; [2%N]].
Proof.
  intros e ln. destruct (@rb_real (-1) ltac:(lia)) as [F1 E1]. destruct (@rb_real (-2) ltac:(lia)) as [F2 E2]. destruct (@rb_real (-4) ltac:(lia)) as [F3 E3].
  assert (Hne : non_empty rb_spans) by repeat constructor. assert (Hid : Forall (fun e => (s_id e < bos_id)%N) rb_spans) by repeat constructor.
  assert (HR : starts_reachable rb_spans 2).
  { split; [|right; exists (Span 1 1%N 1 (f64_of_Z (-2))); split; [right; now left|reflexivity]]. intros x [<-|[<-|[<-|[]]]]; cbn [s_pos]; auto. right. exists (Span 0 0%N 1 (f64_of_Z (-1))). split; [now left|reflexivity]. }
  assert (HE : spans_within rb_spans 4) by (intros t [<-|[<-|[<-|[]]]]; cbn [s_score]; rewrite ?E1, ?E2, ?E3; (split; [assumption|apply Rabs_le; lra])).
  assert (Hfew : forall L, NoDup L -> Forall (fun ks => exists p, Path rb_spans p 2 ks) L -> (N.of_nat (length L) <= 50000)%N).
  { intros L HN HF. assert (Hl : length L <= 4); [|lia]. apply (@NoDup_incl_length _ L [[]; [1]; [0; 1]; [2]] HN). intros ks Hk. rewrite Forall_forall in HF. destruct (HF ks Hk) as (p & HP). now apply rb_tails in HP. }
  destruct (Lat_exists (f64_arith e ln) [x61; x62] Hne) as (l & HL); [repeat constructor|].
  destruct (C41_returns 2 HL Hne Hid) as (l' & paths & Hr). exists l, l', paths. splits; auto.
  assert (Hr4 : (0 <= 4 <= bpow radix2 900)%R) by (split; [lra|change 4%R with (bpow radix2 2); apply bpow_le; lia]).
  assert (H52 : (N.of_nat (length [x61; x62] + 2) <= 2 ^ 52)%N) by (vm_compute; discriminate).
  destruct (C69_nbest HL Hne Hid HR (Nat.le_refl 2) HE Hr4 H52 Hfew Hr) as (kss & Hp & HP & HN & Hlen & HS & HA). change (length [x61; x62] + 2) with 4 in *. assert (Hsl := @small_slack 4 ltac:(simpl; lra)).
  assert (P1 : Path rb_spans 0 2 [0; 1]).
  { apply (@Path_cons _ rb_spans 0 (Span 0 0%N 1 (f64_of_Z (-1))) [1] 2 eq_refl). apply (@Path_cons _ rb_spans 1 (Span 1 1%N 1 (f64_of_Z (-2))) [] 2 eq_refl). constructor. }
  assert (P2 : Path rb_spans 0 2 [2]) by (apply (@Path_cons _ rb_spans 2 (Span 0 2%N 2 (f64_of_Z (-4))) [] 2 eq_refl); constructor).
  assert (V1 : exact_score rb_spans [0; 1] = (-3)%R) by (unfold exact_score, spans_of; cbn [flat_map nth_error rb_spans app map fold_right s_score]; rewrite E1, E2; lra).
  assert (V2 : exact_score rb_spans [2] = (-4)%R) by (unfold exact_score, spans_of; cbn [flat_map nth_error rb_spans app map fold_right s_score]; rewrite E3; lra).
  assert (Hin : forall p, p = [0; 1] \/ p = [2] -> In p kss).
  { intros p Hp0. destruct (HA p) as [H|(H & _)]; [destruct Hp0 as [->| ->]; assumption|exact H|]. destruct kss as [|a [|b [|c kss]]]; try discriminate.
    inversion HP as [|? ? Ha HP1]; subst. inversion HP1 as [|? ? Hb _]; subst. apply rb_tails in Ha as [_ Ha]. apply rb_tails in Hb as [_ Hb]. specialize (Ha eq_refl). specialize (Hb eq_refl).
    inversion HN as [|? ? Hni _]; subst. simpl in *. destruct Hp0 as [->| ->], Ha as [->| ->], Hb as [->| ->]; auto; exfalso; apply Hni; auto. }
  assert (Ek : kss = [[0; 1]; [2]]).
  { assert (H1 := Hin _ (or_introl eq_refl)). assert (H2 := Hin _ (or_intror eq_refl)). destruct kss as [|a [|b [|c kss]]]; [destruct H1| | |simpl in Hlen; lia].
    - destruct H1 as [->|[]]. destruct H2 as [H2|[]]. discriminate.
    - destruct H1 as [->|[->|[]]], H2 as [H2|[H2|[]]]; try discriminate; [now subst|]. subst a. exfalso. inversion HS as [|? ? _ HF]; subst. inversion HF as [|? ? Hlt _]; subst. rewrite V1, V2 in Hlt. lra. }
  subst kss. apply (f_equal (map (map (fun e => s_id e)))) in Hp. rewrite !map_map in Hp. rewrite (map_ext _ (map (fun n => n_token_id n))) in Hp; [exact Hp|]. intros x. now rewrite map_map.
Qed.
