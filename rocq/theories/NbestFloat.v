(** The search for the best paths in binary64. *)
From Coq Require Import Reals Psatz Permutation Sorted.
From Flocq Require Import Core BinarySingleNaN.
From Verif Require Import Base F64 Trie Model BaseProofs F64Proofs Lattice SpecLattice LatticeProofs PopulateProofs HeapProofs PropHeap NbestSearch NbestProofs NbestAll FloatErr FloatSum SpecBest FloatPath.
Set Implicit Arguments.
Local Open Scope nat_scope.

Section Near.
  Variables (e ln : f64 -> f64) (s : bytes) (E : list (span f64)) (l : lattice f64).
  Local Notation A := (f64_arith e ln).
  Local Notation len := (length s).
  Local Notation G := (all_spans A (length s) E).
  Local Notation bk := (back A (l_nodes l)).
  Local Notation sc := (score A G).
  Local Notation N := (length s + 2).
  Hypothesis I : inv A s E l.
  Hypothesis Hne : non_empty E.
  Hypothesis Hid : Forall (fun e => (s_id e < bos_id)%N) E.
  Hypothesis Hsol : all_solved A (length s) E l.
  Variable S : R.
  Hypothesis HN : (N.of_nat N <= 2 ^ 52)%N.
  Hypothesis HS : (0 <= S <= big)%R.
  Hypothesis HE : spans_within E S.

  Lemma sc_within i : is_finite (sc i) = true /\ (Rabs (B2R (sc i)) <= S)%R.
  Proof.
    assert (H0 : is_finite f0 = true /\ (Rabs (B2R f0) <= S)%R) by (split; [reflexivity|]; change (B2R f0) with 0%R; rewrite Rabs_R0; apply HS).
    unfold score. destruct (nth_error G i) as [x|] eqn:Ex; [|exact H0]. destruct (@G_at _ A _ _ _ _ Ex) as [(_ & ->)|[(_ & ->)|(k & _ & Hk)]]; [exact H0|exact H0|].
    apply HE. eapply nth_error_In; eauto.
  Qed.
  Lemma sc_E {k x} : nth_error E k = Some x -> sc (2 + k) = s_score x.
  Proof. intros H. unfold score. change (nth_error G (2 + k)) with (nth_error E k). now rewrite H. Qed.
  Lemma bk_0 : bk 0 = f0.
  Proof. apply (@back_0 _ A _ _ _ (i_nodes I)). Qed.
  Lemma bk_sum i : 1 <= i < length G -> exists ks, Path E 0 (pos_of G i) ks /\ bk i = fadd (acc A E ks) (sc i).
  Proof.
    intros Hi. destruct (nth_error_lt (l_nodes l) (i := i)) as (nd & Hn); [rewrite (nodes_length (i_nodes I)); lia|].
    destruct (@trace_spec _ A _ _ Hne _ (i_nodes I) Hsol i nd (Datatypes.S (pos_of G i)) [] Hi Hn) as (ks & _ & HP & _ & _ & Hb); [lia|]. eauto.
  Qed.
  Lemma finite_nan x : is_finite x = true -> f_is_nan x = false.
  Proof. destruct x; try discriminate; reflexivity. Qed.
  Lemma bk_above i ks : 1 <= i < length G -> Path E 0 (pos_of G i) ks -> is_finite (fadd (acc A E ks) (sc i)) = true -> is_finite (bk i) = true ->
    fleb (fadd (acc A E ks) (sc i)) (bk i) = true.
  Proof.
    intros Hi HP F1 F2. destruct (@back_max _ A _ _ _ (i_nodes I) Hsol _ _ (f64_ordered e ln) (fun j => proj1 (sc_within j)) _ _ Hi HP) as [_ H].
    apply f64_le in H; auto; now apply finite_nan.
  Qed.
  Lemma approx_prefix i ks : i < length G -> Path E 0 (pos_of G i) ks -> 2 + length ks <= N -> approx N S (2 + length ks) (fadd (acc A E ks) (sc i)) (exact_score E ks + B2R (sc i)).
  Proof.
    intros Hi HP Hk. destruct (sc_within i) as [F B]. replace (2 + length ks) with (1 + length ks + 1) by lia. apply approx_add; auto; [|now apply approx_one|lia].
    apply approx_acc; auto. lia.
  Qed.

  (** What a hypothesis promises. *)
  Definition near (h : @hypothesis f64) : Prop :=
    is_finite (h_fx h) = true /\
    (is_eos h /\ h_gx h = f0 \/
     exists ks g, leads A s E h ks /\ approx N S (1 + length ks) g (exact_score E ks) /\ h_fx h = fadd (bk (h_node h)) g /\ h_gx h = fadd (sc (h_node h)) g).
  Definition extends (h : @hypothesis f64) (p : list nat) : Prop := Path E 0 len p /\ suffix (chain h) (full (idx p)).

  Lemma near_ok h : near h -> hyp_ok A s E h.
  Proof. intros [_ [[H _]|(ks & g & H & _)]]; [now left|right; eauto]. Qed.
  Lemma near_tail h : near h -> h_node h <> 0 -> exists ks, chain h = idx ks ++ [1] /\ Path E (pos_of G (h_node h)) len ks /\ approx N S (1 + length ks) (h_gx h) (exact_score E ks).
  Proof.
    intros [_ [[[H1 H2] Hg]|(ks & g & (Hn & p & HP & Hin) & Ha & _ & Hg)]] H0.
    - exists []. unfold chain. rewrite H1, H2, Hg. splits; [reflexivity|constructor|]. unfold exact_score. simpl. now apply approx_zero.
    - apply ends_spec in Hin as (H1 & x & Hx & Hp). destruct (@G_at _ A _ _ _ _ Hx) as [(E0 & _)|[(E1 & _)|(k & Ek & Hk)]]; [congruence|congruence|].
      assert (HPk : Path E (pos_of G (h_node h)) len (k :: ks)) by (unfold pos_of; rewrite Hx; econstructor; [exact Hk|]; now rewrite Hp).
      exists (k :: ks). unfold chain. rewrite Hn, Ek. rewrite Ek in HPk. splits; [reflexivity|exact HPk|]. assert (Hl := path_short Hne HPk). cbn [length] in Hl |- *.
      rewrite (exact_cons _ _ Hk), Hg, Ek, (sc_E Hk). destruct (HE x (nth_error_In _ _ Hk)) as [F B]. change (1 + Datatypes.S (length ks)) with (1 + (1 + length ks)).
      apply approx_add; auto; [now apply approx_one|lia].
  Qed.
  (** The estimate of a hypothesis that starts at the node [i] and ends with the path [ks]. *)
  Lemma estimate_ok {i p ks g} : In i (ends G p) -> Path E p len ks -> approx N S (1 + length ks) g (exact_score E ks) ->
    is_finite (fadd (bk i) g) = true /\
    (i = 0 -> approx N S (2 + length ks) (fadd (bk i) g) (exact_score E ks)) /\
    forall k a, i = 2 + k -> Path E 0 (pos_of G i) a -> (exact_score E (a ++ k :: ks) <= B2R (fadd (bk i) g) + slack N S / 2)%R.
  Proof.
    intros Hin HP Hg. assert (Hp := path_short Hne HP). destruct (ends_before A len Hne _ _ Hin) as (H1 & Hlt & [(-> & ->)|(Hge & Hpos)]).
    - assert (Ha : approx N S (2 + length ks) (fadd (bk 0) g) (exact_score E ks)).
      { rewrite bk_0, <- (Rplus_0_l (exact_score E ks)). change (2 + length ks) with (1 + (1 + length ks)). apply approx_add; auto; [now apply approx_zero|lia]. }
      split; [apply Ha|]. split; [auto|]. intros k a Hk. discriminate.
    - assert (Hi : 1 <= i < length G) by lia. assert (Hb : forall a, Path E 0 (pos_of G i) a -> approx N S (2 + length a) (fadd (acc A E a) (sc i)) (exact_score E a + B2R (sc i)) /\
        approx N S (2 + length a + (1 + length ks)) (fadd (fadd (acc A E a) (sc i)) g) (exact_score E a + B2R (sc i) + exact_score E ks)).
      { intros a Ha. assert (Hla := path_short Hne Ha). assert (H2 : approx N S (2 + length a) (fadd (acc A E a) (sc i)) (exact_score E a + B2R (sc i))) by (apply approx_prefix; auto; lia).
        split; [exact H2|]. apply approx_add; auto. lia. }
      destruct (bk_sum Hi) as (a0 & HP0 & E0). destruct (Hb _ HP0) as [X0 Y0]. rewrite <- E0 in X0, Y0. split; [apply Y0|]. split; [intros ->; lia|]. intros k a -> Ha. destruct (Hb _ Ha) as [X Y].
      assert (Hx : exists x, nth_error E k = Some x) by (apply nth_error_lt; simpl in Hlt; lia). destruct Hx as (x & Hx).
      assert (Hm := fadd_mono_l _ _ _ (proj1 Hg) (bk_above Hi Ha (proj1 X) (proj1 X0))). rewrite fleb_finite in Hm; [|apply Y|apply Y0].
      assert (Hle : (B2R (fadd (fadd (acc A E a) (sc (2 + k))) g) <= B2R (fadd (bk (2 + k)) g))%R) by (destruct (Rle_bool_spec (B2R (fadd (fadd (acc A E a) (sc (2 + k))) g)) (B2R (fadd (bk (2 + k)) g))); [assumption|discriminate]).
      assert (Hla := path_short Hne Ha). assert (Hs := approx_slack HS Y ltac:(lia)). apply Rabs_le_inv in Hs.
      rewrite (exact_app E a (k :: ks)), (exact_cons _ _ Hx), <- (sc_E Hx). lra.
  Qed.
  Lemma near_child h i : near h -> h_node h <> 0 -> In i (ends G (pos_of G (h_node h))) -> near (child A s E l h i).
  Proof.
    intros Hh H0 Hi. destruct (near_tail Hh H0) as (ks & Hc & HP & Hg). split; [exact (proj1 (estimate_ok Hi HP Hg))|]. right. exists ks, (h_gx h). splits; auto.
    split; [exact Hc|]. exists (pos_of G (h_node h)). auto.
  Qed.
  Lemma near_above h p : near h -> h_node h <> 1 -> extends h p -> (exact_score E p <= B2R (h_fx h) + slack N S / 2)%R.
  Proof.
    intros [_ [[[H1 _] _]|(ks & g & (Hn & q & HP & Hin) & Hg & Ef & _)]] H1' (HPp & w & Hw); [congruence|]. destruct (estimate_ok Hin HP Hg) as (_ & Hz & Hb). rewrite Ef.
    unfold full, chain in Hw. rewrite Hn in Hw. destruct w as [|y w].
    - simpl in Hw. injection Hw as H0 Hw. symmetry in H0. apply app_last_inv, idx_inj in Hw. subst p. specialize (Hz H0). assert (Hl := path_short Hne HPp).
      assert (Hs := approx_slack HS Hz ltac:(lia)). apply Rabs_le_inv in Hs. lra.
    - simpl in Hw. injection Hw as <- Hw. rewrite app_comm_cons in Hw. rewrite app_assoc in Hw. apply app_last_inv in Hw.
      destruct (h_node h) as [|[|k]] eqn:Ek; [exfalso|congruence|].
      { assert (Hi : In 0 (idx p)) by (rewrite Hw; apply in_or_app; right; now left). apply in_map_iff in Hi as (z & Hz' & _). discriminate. }
      change (Datatypes.S (Datatypes.S k) :: idx ks) with (idx (k :: ks)) in Hw. apply idx_app_inv in Hw as (a & -> & ->). apply (Hb k a); [reflexivity|].
      destruct (path_split _ _ HPp) as (m & HPa & HPm). assert (Hm : exists x, nth_error E k = Some x /\ s_pos x = m) by (inversion HPm; subst; eauto). destruct Hm as (x & Hx & <-).
      unfold pos_of. change (nth_error G (Datatypes.S (Datatypes.S k))) with (nth_error E k). now rewrite Hx.
  Qed.
  Lemma near_exact h ks : near h -> h_node h = 0 -> leads A s E h ks -> Path E 0 len ks -> (B2R (h_fx h) <= exact_score E ks + slack N S / 2)%R.
  Proof.
    intros [_ [[[H1 _] _]|(ks' & g & (Hn & q & HP & Hin) & Hg & Ef & _)]] H0 (Hn' & _) HPk; [congruence|]. rewrite Hn in Hn'. apply app_last_inv, idx_inj in Hn'. subst ks'.
    destruct (estimate_ok Hin HP Hg) as (_ & Hz & _). specialize (Hz H0). rewrite Ef. assert (Hl := path_short Hne HPk). assert (Hs := approx_slack HS Hz ltac:(lia)). apply Rabs_le_inv in Hs. lra.
  Qed.
  Lemma near_keeps : keeps A True near l.
  Proof.
    intros _ top hs Ht Hv. destruct (visit_spec I Hne Hid (near_ok Ht)) as [(_ & ks & _ & _ & Hv')|(H0 & Hv')]; rewrite Hv in Hv'; [discriminate|]. injection Hv' as ->.
    apply Forall_forall. intros h Hh. apply in_map_iff in Hh as (i & <- & Hi). now apply near_child.
  Qed.
  Lemma near_ordered hs : Forall near hs -> Ordered (hyp_less A) hs.
  Proof. intros H. apply C61_hypotheses. eapply Forall_impl; [|exact H]. intros h [F _]. now apply finite_nan. Qed.

  (** ** The invariant *)
  Variable n : nat.
  Hypothesis Hfew : forall L, NoDup L -> Forall (fun ks => exists p, Path E p len ks) L -> (N.of_nat (length L) <= 50000)%N.
  Local Notation D := (slack N S).
  Definition beats (f p : list nat) : Prop := forall ks, f = idx ks -> (exact_score E p <= exact_score E ks + D)%R.
  Record near_state (agenda : list hypothesis) (found : list (list nat)) : Prop := {
    ns_near : Forall near agenda;
    ns_first : agenda = [] \/ (exists h, agenda = [h]) \/ Forall (fun h => h_node h <> 1) agenda;
    ns_above : forall f h p, In f found -> In h agenda -> extends h p -> beats f p;
    ns_sorted : StronglySorted (fun f f' => forall p, f' = idx p -> beats f p) found }.
  Definition near_result (found : list (list nat)) : Prop :=
    StronglySorted (fun f f' => forall p, f' = idx p -> beats f p) found /\
    forall p, Path E 0 len p -> In (idx p) found \/ length found = n /\ forall f, In f found -> beats f p.
  Definition near_search (st : @search f64) : Prop :=
    match st with Running agenda found => near_state agenda found /\ covered s E agenda found | Stopped (Ok found) => near_result found | _ => False end.

  Lemma near_perm agenda agenda' found : Permutation agenda agenda' -> near_state agenda found -> near_state agenda' found.
  Proof.
    intros HP [H1 H2 H3 H4]. constructor; auto.
    - eapply Permutation_Forall; eauto.
    - destruct H2 as [->|[(h & ->)|H2]]; [left; now apply Permutation_nil in HP|right; left; exists h; now apply Permutation_length_1_inv in HP|right; right; eapply Permutation_Forall; eauto].
    - intros f h p Hf Hh. apply H3; auto. eapply Permutation_in; [symmetry|]; eauto.
  Qed.
  Lemma extends_self h ks : h_node h = 0 -> leads A s E h ks -> Path E 0 len ks -> extends h ks.
  Proof. intros H0 (Hn & _) HP. split; [exact HP|]. exists []. unfold chain, full. rewrite H0, Hn. reflexivity. Qed.
  Lemma sorted_snoc {X} (R : X -> X -> Prop) L x : StronglySorted R L -> (forall y, In y L -> R y x) -> StronglySorted R (L ++ [x]).
  Proof.
    induction 1 as [|y L HS' IH HF]; intros Hx; simpl; [repeat constructor|]. constructor; [apply IH; intros; apply Hx; now right|].
    apply Forall_app. split; [exact HF|]. constructor; [apply Hx; now left|constructor].
  Qed.
  Lemma near_found_step agenda top rest found ks : pops A True agenda top rest -> h_node top = 0 -> leads A s E top ks -> Path E 0 len ks -> near_state (top :: rest) found -> near_state rest (found ++ [idx ks]).
  Proof.
    intros [_ Hmax] H0 Hl HP [H1 H2 H3 H4]. inversion H1 as [|? ? Ht Hr]; subst. constructor.
    - exact Hr.
    - destruct H2 as [H2|[(h & H2)|H2]]; [discriminate|injection H2 as -> ->; now left|inversion H2; right; right; assumption].
    - intros f h p Hf Hh Hp. apply in_app_iff in Hf as [Hf|[<-|[]]]; [apply (H3 f h p Hf); [now right|exact Hp]|]. intros ks' Ek. apply idx_inj in Ek. subst ks'.
      destruct H2 as [H2|[(h' & H2)|H2]]; [discriminate|injection H2 as -> ->; destruct Hh|]. inversion H2 as [|? ? _ H2']; subst. rewrite Forall_forall in H2', Hr.
      assert (Ha := near_above (Hr _ Hh) (H2' _ Hh) Hp). assert (Hb := near_exact Ht H0 Hl HP). specialize (Hmax Logic.I h Hh). simpl in Hmax.
      rewrite fltb_finite in Hmax; [|apply Ht|apply (Hr _ Hh)]. destruct (Rlt_bool_spec (B2R (h_fx top)) (B2R (h_fx h))) as [|Hle]; [discriminate|]. lra.
    - apply sorted_snoc; [exact H4|]. intros f Hf p Ep. apply idx_inj in Ep. subst p. apply (H3 f top ks Hf); [now left|]. now apply extends_self.
  Qed.
  Lemma near_expand_step top rest found : h_node top <> 0 -> near_state (top :: rest) found -> near_state (rest ++ map (child A s E l top) (ends G (pos_of G (h_node top)))) found.
  Proof.
    intros H0 [H1 H2 H3 H4]. inversion H1 as [|? ? Ht Hr]; subst. constructor; auto.
    - apply Forall_app. split; [exact Hr|]. apply Forall_forall. intros h Hh. apply in_map_iff in Hh as (i & <- & Hi). now apply near_child.
    - right. right. apply Forall_app. split.
      + destruct H2 as [H2|[(h & H2)|H2]]; [discriminate|injection H2 as -> ->; constructor|now inversion H2].
      + apply Forall_forall. intros h Hh. apply in_map_iff in Hh as (i & <- & Hi). simpl. now apply ends_spec in Hi.
    - intros f h p Hf Hh Hp. apply in_app_iff in Hh as [Hh|Hh]; [apply (H3 f h p Hf); [now right|exact Hp]|]. apply in_map_iff in Hh as (i & <- & Hi).
      apply (H3 f top p Hf); [now left|]. destruct Hp as [HP Hs]. split; [exact HP|]. eapply suffix_cons. exact Hs.
  Qed.
  Lemma near_step st st' : ok_search A s E n st -> near_search st -> search_step A True l n st st' -> near_search st'.
  Proof.
    intros Hok Hall H. destruct H as [found|agenda top rest found path HPop Hv Hlen|agenda top rest found path HPop Hv Hlen|agenda top rest found hs agenda' HPop Hv Hs|agenda top rest found HPop Hv]; simpl in Hok, Hall |- *.
    1: { destruct Hall as [[_ _ _ H4] HC]. split; [exact H4|]. intros p HP. left. destruct (HC p HP) as [H|(h & [] & _)]; exact H. }
    all: destruct Hall as [Hall HC]; apply (ok_state_perm (proj1 HPop)) in Hok; apply (covered_perm (proj1 HPop)) in HC; apply (near_perm (proj1 HPop)) in Hall; assert (Ht : hyp_ok A s E top) by (destruct Hok as [H1 _ _ _]; now inversion H1);
      destruct (visit_spec I Hne Hid Ht) as [(H0 & ks & Hl & HP & Hv')|(H0 & Hv')]; rewrite Hv in Hv'; try discriminate.
    - injection Hv' as ->. assert (HS' := near_found_step HPop H0 Hl HP Hall). assert (HC' := covered_found H0 Hl HC). split; [apply HS'|].
      intros p HPp. destruct (HC' p HPp) as [Hin|(h & Hh & Hsf)]; [now left|right]. split; [exact Hlen|]. intros f Hf. refine (@ns_above _ _ HS' f h p Hf Hh _). split; assumption.
    - injection Hv' as ->. split; [eapply near_found_step; eauto|eapply covered_found; eauto].
    - injection Hv' as ->. apply (ok_expand_step l H0) in Hok. apply (covered_expand l Ht H0) in HC. apply (near_expand_step H0) in Hall. unfold shrinks in Hs. assert (Hsm := agenda_small Hfew Hok).
      destruct (N.ltb_spec k_max_agenda_size (N.of_nat (length (rest ++ map (child A s E l top) (ends G (pos_of G (h_node top))))))) as [Hlt|_]; [exfalso; unfold k_max_agenda_size in Hlt; lia|]. now subst agenda'.
  Qed.
  Lemma near_runs st r : ok_search A s E n st -> near_search st -> search_runs A True l n st r -> exists found, r = Ok found /\ near_result found.
  Proof.
    intros Hok Hall H. induction H as [r|st st' r Hs H IH].
    - destruct r as [found| | |]; simpl in Hall; try contradiction. eauto.
    - apply IH; [eapply ok_step; eauto|eapply near_step; eauto].
  Qed.
End Near.
