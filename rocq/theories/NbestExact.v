(** The search for the best paths in exact arithmetic. *)
From Coq Require Import Reals Lra Permutation Sorted.
From Verif Require Import Base F64 Trie Model BaseProofs Lattice SpecLattice LatticeProofs PopulateProofs NbestSearch NbestProofs RealArith.
Set Implicit Arguments.
Local Open Scope nat_scope.

Section Exact.
  Variables (s : bytes) (E : list (span R)) (l : lattice R).
  Hypothesis I : inv R_arith s E l.
  Hypothesis Hne : non_empty E.
  Hypothesis Hid : Forall (fun e => (s_id e < bos_id)%N) E.
  Hypothesis Hsol : all_solved R_arith (length s) E l.
  Variable n : nat.
  (** The agenda is not cut, or only hypotheses that do not matter are dropped. *)
  Hypothesis Hcut : n <= 512 \/ forall L, NoDup L -> Forall (fun ks => Path E 0 (length s) ks) L -> (N.of_nat (length L) <= 100000)%N.
  Local Notation A := R_arith.
  Local Notation len := (length s).
  Local Notation G := (all_spans R_arith (length s) E).
  Local Notation bk := (back R_arith (l_nodes l)).
  Local Notation sc := (score R_arith G).

  Lemma pos_1 : pos_of G 1 = len.
  Proof. reflexivity. Qed.
  Lemma sc_1 : sc 1 = 0%R.
  Proof. reflexivity. Qed.
  Lemma sc_0 : sc 0 = 0%R.
  Proof. reflexivity. Qed.
  Lemma sc_E {k e} : nth_error E k = Some e -> sc (2 + k) = s_score e.
  Proof. intros H. unfold score. change (nth_error G (2 + k)) with (nth_error E k). now rewrite H. Qed.
  Lemma bk_0 : bk 0 = 0%R.
  Proof. apply (@back_0 _ A _ _ _ (i_nodes I)). Qed.
  Lemma bk_le i j : 1 <= i < length G -> In j (ends G (pos_of G i)) -> (bk j + sc i <= bk i)%R.
  Proof. intros Hi Hj. destruct (Hsol Hi) as [_ HO]. destruct (HO _ _ R_ordered (fun _ => Logic.I)) as [_ H]. specialize (H j Hj). unfold le in H. simpl in H. now apply Rltb_false in H. Qed.
  Lemma bk_eq i : 1 <= i < length G -> exists j, In j (ends G (pos_of G i)) /\ bk i = (bk j + sc i)%R.
  Proof. intros Hi. destruct (Hsol Hi) as [(j & _ & H1 & H2) _]. eauto. Qed.
  Lemma bk_path i ks : 1 <= i < length G -> Path E 0 (pos_of G i) ks -> (total E ks + sc i <= bk i)%R.
  Proof.
    intros Hi HP. destruct (@back_max _ A _ _ _ (i_nodes I) Hsol _ _ R_ordered (fun _ => Logic.I) _ _ Hi HP) as [_ H]. unfold le in H. simpl in H. apply Rltb_false in H.
    now rewrite acc_total in H.
  Qed.
  Lemma some_path i : 1 <= i < length G -> exists ks, Path E 0 (pos_of G i) ks.
  Proof.
    intros Hi. destruct (nth_error_lt (l_nodes l) (i := i)) as (nd & Hn); [rewrite (nodes_length (i_nodes I)); lia|].
    destruct (@trace_spec _ A _ _ Hne _ (i_nodes I) Hsol i nd (Datatypes.S (pos_of G i)) [] Hi Hn) as (ks & _ & HP & _); [lia|]. eauto.
  Qed.
  Lemma Path_app p q r a b : Path E p q a -> Path E q r b -> Path E p r (a ++ b).
  Proof. induction 1 as [|k e a q Hk H IH]; intros H2; simpl; [exact H2|]. econstructor; eauto. Qed.
  Lemma Path_split a b : forall p q, Path E p q (a ++ b) -> exists m, Path E p m a /\ Path E m q b.
  Proof.
    induction a as [|k a IH]; intros p q H; simpl in H; [exists p; split; [constructor|exact H]|]. inversion H as [|k1 e ks1 q1 Hk HP]; subst.
    destruct (IH _ _ HP) as (m & H1 & H2). exists m. split; [|exact H2]. econstructor; eauto.
  Qed.

  Lemma Path_same p p' q ks : Path E p q ks -> Path E p' q ks -> p = p'.
  Proof.
    intros H H'. destruct ks as [|k ks].
    - assert (p = q) by (inversion H; reflexivity). assert (p' = q) by (inversion H'; reflexivity). congruence.
    - assert (exists e, nth_error E k = Some e /\ s_pos e = p) as (e & He & <-) by (inversion H; subst; eauto).
      assert (exists e, nth_error E k = Some e /\ s_pos e = p') as (e' & He' & <-) by (inversion H'; subst; eauto). congruence.
  Qed.

  (** ** Exact hypotheses *)
  Definition exact (h : @hypothesis R) : Prop := exists ks, leads A s E h ks /\ h_fx h = (bk (h_node h) + total E ks)%R /\ h_gx h = (sc (h_node h) + total E ks)%R.
  Definition first (h : @hypothesis R) : Prop := is_eos h /\ h_gx h = 0%R.
  Definition phi (h : @hypothesis R) : R := match h_next h with [] => bk 1 | _ => h_fx h end.

  Lemma phi_exact h : exact h -> phi h = h_fx h.
  Proof. intros (ks & (H & _) & _). unfold phi. rewrite H. now destruct (idx ks). Qed.
  Lemma phi_first h : first h -> phi h = bk 1.
  Proof. intros [[_ H] _]. unfold phi. now rewrite H. Qed.
  Lemma exact_ok h : exact h -> hyp_ok A s E h.
  Proof. intros (ks & H & _). right. eauto. Qed.
  Lemma first_ok h : first h -> hyp_ok A s E h.
  Proof. intros [H _]. now left. Qed.
  Lemma idx_app a b : idx (a ++ b) = idx a ++ idx b.
  Proof. apply map_app. Qed.

  (** The tail of a hypothesis and its score. *)
  Lemma tail_gx h : exact h \/ first h -> h_node h <> 0 -> exists ks, chain h = idx ks ++ [1] /\ Path E (pos_of G (h_node h)) len ks /\ h_gx h = total E ks.
  Proof.
    intros [(ks & (Hn & p & HP & Hin) & Hf & Hg)|[[H1 H2] Hg]] H0.
    - apply ends_spec in Hin as (H1 & e & He & Hp). destruct (@G_at _ A _ _ _ _ He) as [(E0 & _)|[(E1 & _)|(k & Ek & Hk)]]; [congruence|congruence|].
      exists (k :: ks). unfold chain. rewrite Hn, Ek. split; [reflexivity|]. unfold pos_of. rewrite <- Ek, He. split; [econstructor; [exact Hk|]; now rewrite Hp|].
      rewrite Hg, (total_cons _ Hk), Ek, (sc_E Hk). reflexivity.
    - exists []. unfold chain. rewrite H1, H2. split; [reflexivity|]. split; [rewrite pos_1; constructor|exact Hg].
  Qed.
  Lemma phi_gx h : exact h \/ first h -> phi h = (bk (h_node h) + (h_gx h - sc (h_node h)))%R.
  Proof.
    intros [H|H].
    - rewrite (phi_exact H). destruct H as (ks & _ & -> & ->). lra.
    - rewrite (phi_first H). destruct H as [[-> _] ->]. rewrite sc_1. lra.
  Qed.
  Lemma child_exact h i : exact h \/ first h -> h_node h <> 0 -> In i (ends G (pos_of G (h_node h))) -> exact (child A s E l h i).
  Proof.
    intros Hh H0 Hi. destruct (tail_gx Hh H0) as (ks & Hc & HP & Hg). exists ks. split.
    - split; [exact Hc|]. exists (pos_of G (h_node h)). auto.
    - unfold child. simpl. rewrite Hg. auto.
  Qed.
  Lemma node_lt h : exact h \/ first h -> h_node h < length G.
  Proof. intros [H|H]; apply (hyp_node I Hne); [now apply exact_ok|now apply first_ok]. Qed.
  Lemma child_le h i : exact h \/ first h -> h_node h <> 0 -> In i (ends G (pos_of G (h_node h))) -> (phi (child A s E l h i) <= phi h)%R.
  Proof.
    intros Hh H0 Hi. rewrite (phi_exact (child_exact i Hh H0 Hi)), (phi_gx Hh). simpl h_fx. assert (H := @bk_le (h_node h) i). assert (H1 := node_lt Hh).
    specialize (H ltac:(lia) Hi). simpl. lra.
  Qed.
  Lemma child_eq h : exact h \/ first h -> h_node h <> 0 -> exists i, In i (ends G (pos_of G (h_node h))) /\ phi (child A s E l h i) = phi h.
  Proof.
    intros Hh H0. assert (H1 := node_lt Hh). destruct (@bk_eq (h_node h)) as (i & Hi & He); [lia|]. exists i. split; [exact Hi|].
    rewrite (phi_exact (child_exact i Hh H0 Hi)), (phi_gx Hh). simpl. lra.
  Qed.

  (** No extension of a hypothesis is better than it promises. *)
  Lemma app_last_inv {X} (a b : list X) x y : a ++ [x] = b ++ [y] -> a = b.
  Proof. intros H. now apply app_inj_tail in H. Qed.
  Lemma idx_app_inv ks : forall w b, idx ks = w ++ idx b -> exists a, w = idx a /\ ks = a ++ b.
  Proof.
    induction ks as [|k ks IH]; intros w b H.
    - symmetry in H. apply app_eq_nil in H as [-> H]. exists []. destruct b; [auto|discriminate].
    - destruct w as [|x w]; simpl in H.
      + exists []. split; [reflexivity|]. apply idx_inj. exact H.
      + injection H as <- H. destruct (IH _ _ H) as (a & -> & ->). exists (k :: a). auto.
  Qed.
  Lemma extends_le h ks : exact h \/ first h -> Path E 0 len ks -> suffix (chain h) (full (idx ks)) -> (total E ks <= phi h)%R.
  Proof.
    intros Hh HP (w & Hw). destruct w as [|x w].
    - unfold full, chain in Hw. simpl in Hw. injection Hw as H0 Hw. destruct Hh as [Hh|[[H1 _] _]]; [|congruence]. rewrite (phi_exact Hh).
      destruct Hh as (ks' & (Hn & _) & -> & _). rewrite <- H0, bk_0. rewrite Hn in Hw. apply app_last_inv, idx_inj in Hw. subst ks'. lra.
    - unfold full in Hw. simpl in Hw. injection Hw as <- Hw. assert (H0 : h_node h <> 0).
      { intros H0. destruct Hh as [(ks' & (Hn & _) & _)|[[H1 _] _]]; [|congruence]. unfold chain in Hw. rewrite H0, Hn in Hw.
        assert (Hin : In 0 (idx ks ++ [1])) by (rewrite Hw; apply in_or_app; right; now left). apply in_app_iff in Hin as [Hin|[Hin|[]]]; [|discriminate].
        apply in_map_iff in Hin as (k & Hk & _). discriminate. }
      destruct (tail_gx Hh H0) as (b & Hc & HPb & Hg). rewrite Hc, app_assoc in Hw. apply app_last_inv in Hw. apply idx_app_inv in Hw as (a & -> & ->).
      destruct (Path_split _ _ HP) as (m & HPa & HPm). assert (m = pos_of G (h_node h)) by exact (Path_same HPm HPb).
      subst m. assert (H1 := node_lt Hh). assert (Hb := @bk_path (h_node h) a ltac:(lia) HPa). rewrite total_app, (phi_gx Hh), Hg. lra.
  Qed.

  (** Every hypothesis is the end of a complete path. *)
  Lemma hyp_extends h : exact h \/ first h -> exists ks, Path E 0 len ks /\ suffix (chain h) (full (idx ks)).
  Proof.
    intros Hh. destruct (Nat.eq_dec (h_node h) 0) as [H0|H0].
    - assert (Hok : hyp_ok A s E h) by (destruct Hh; [now apply exact_ok|now apply first_ok]).
      destruct (visit_spec I Hne Hid Hok) as [(_ & ks & (Hn & _) & HP & _)|(H & _)]; [|congruence]. exists ks. split; [exact HP|].
      exists []. unfold chain, full. rewrite H0, Hn. reflexivity.
    - destruct (tail_gx Hh H0) as (b & Hc & HPb & _). destruct (@some_path (h_node h)) as (a & HPa); [split; [lia|now apply node_lt]|].
      exists (a ++ b). split; [eapply Path_app; eauto|]. exists (0 :: idx a). rewrite Hc. unfold full. rewrite idx_app, app_assoc. reflexivity.
  Qed.
  (** Lists apart that end different paths. *)
  Lemma extensions agenda : Forall (fun h => exact h \/ first h) agenda -> all_apart (map chain agenda) ->
    exists L, length L = length agenda /\ NoDup L /\ Forall (fun ks => Path E 0 len ks) L /\ forall ks, In ks L -> exists h, In h agenda /\ suffix (chain h) (full (idx ks)).
  Proof.
    induction agenda as [|h agenda IH]; intros HF HA.
    - exists []. splits; auto; [constructor|]. intros ks [].
    - inversion HF as [|? ? Hh HF']; subst. destruct HA as [H1 H2]. destruct (IH HF' H2) as (L & Hl & HN & HP & Hs). destruct (hyp_extends Hh) as (ks & HPk & Hk).
      exists (ks :: L). splits.
      + simpl. now rewrite Hl.
      + constructor; [|exact HN]. intros Hin. destruct (Hs _ Hin) as (h' & Hh' & Hk'). destruct (H1 (chain h') (in_map _ _ _ Hh')) as [Ha Hb].
        destruct Hk as (w & Hw). destruct Hk' as (w' & Hw'). rewrite Hw in Hw'.
        assert (Hsuf : forall (a b c d : list nat), a ++ b = c ++ d -> suffix b d \/ suffix d b).
        { clear. induction a as [|x a IHa]; intros b c d Hx; simpl in Hx; [left + right; now exists c|]. destruct c as [|y c]; simpl in Hx.
          - left. exists (x :: a). now rewrite <- Hx.
          - injection Hx as _ Hx. eauto. }
        destruct (Hsuf _ _ _ _ Hw'); contradiction.
      + constructor; auto.
      + intros k [<-|Hin]; [exists h; split; [now left|exact Hk]|]. destruct (Hs _ Hin) as (h' & Hh' & Hk'). exists h'. split; [now right|exact Hk'].
  Qed.

  (** ** The invariant *)
  Definition good_agenda (agenda : list hypothesis) : Prop := (exists h, agenda = [h] /\ first h) \/ Forall exact agenda.
  Definition value (path : list nat) : R := fold_right Rplus 0%R (map sc path).
  Lemma value_idx ks p q : Path E p q ks -> value (idx ks) = total E ks.
  Proof. induction 1 as [|k e ks q Hk H IH]; [reflexivity|]. rewrite (total_cons _ Hk), <- IH. unfold value. cbn [idx map fold_right]. now rewrite (sc_E Hk). Qed.

  Definition count (agenda : list hypothesis) (x : R) : nat := length (filter (fun h => negb (Rltb (phi h) x)) agenda).
  Record best_state (agenda : list hypothesis) (found : list (list nat)) : Prop := {
    bs_ok : ok_state A s E n agenda found;
    bs_good : good_agenda agenda;
    bs_above : forall f h, In f found -> In h agenda -> (phi h <= value f)%R;
    bs_sorted : StronglySorted (fun x y => (y <= x)%R) (map value found);
    bs_all : forall ks, Path E 0 len ks -> In (idx ks) found \/ (exists h, In h agenda /\ suffix (chain h) (full (idx ks))) \/
      ((forall f, In f found -> (total E ks <= value f)%R) /\ n <= length found + count agenda (total E ks)) }.

  Definition best (found : list (list nat)) : Prop :=
    StronglySorted (fun x y => (y <= x)%R) (map value found) /\
    forall ks, Path E 0 len ks -> ~ In (idx ks) found -> length found = n /\ forall f, In f found -> (total E ks <= value f)%R.
  Definition best_search (st : search) : Prop := match st with Running agenda found => best_state agenda found | Stopped (Ok found) => best found | _ => False end.

  Lemma good_each agenda : good_agenda agenda -> Forall (fun h => exact h \/ first h) agenda.
  Proof. intros [(h & -> & H)|H]; [constructor; [now right|constructor]|]. eapply Forall_impl; [|exact H]. auto. Qed.
  Lemma good_perm a b : Permutation a b -> good_agenda a -> good_agenda b.
  Proof.
    intros HP [(h & -> & H)|H]; [left; exists h; split; [now apply Permutation_length_1_inv in HP|exact H]|right]. eapply Permutation_Forall; eauto.
  Qed.
  Lemma count_perm a b x : Permutation a b -> count a x = count b x.
  Proof.
    intros HP. unfold count. induction HP as [|h a b HP IH|h h' a|a b c H1 IH1 H2 IH2]; simpl; auto.
    - destruct (negb _); simpl; auto.
    - destruct (negb (Rltb (phi h) x)), (negb (Rltb (phi h') x)); reflexivity.
    - congruence.
  Qed.
  Lemma count_app a b x : count (a ++ b) x = count a x + count b x.
  Proof. unfold count. now rewrite filter_app, app_length. Qed.
  Lemma count_cons h a x : count (h :: a) x = (if Rltb (phi h) x then 0 else 1) + count a x.
  Proof. unfold count. simpl. destruct (Rltb (phi h) x); reflexivity. Qed.
  Lemma count_zero a x : (forall h, In h a -> (phi h < x)%R) -> count a x = 0.
  Proof.
    induction a as [|h a IH]; intros H; [reflexivity|]. rewrite count_cons, IH by (intros; apply H; now right).
    assert (Hh := H h (or_introl eq_refl)). apply Rltb_true in Hh. now rewrite Hh.
  Qed.
  Lemma count_all a x : (forall h, In h a -> (x <= phi h)%R) -> count a x = length a.
  Proof.
    induction a as [|h a IH]; intros H; [reflexivity|]. rewrite count_cons, IH by (intros; apply H; now right).
    assert (Hh := H h (or_introl eq_refl)). apply Rltb_false in Hh. now rewrite Hh.
  Qed.
  Lemma count_pos a x h : In h a -> (x <= phi h)%R -> 1 <= count a x.
  Proof. intros Hin Hx. apply in_split in Hin as (a1 & a2 & ->). rewrite count_app, count_cons. apply Rltb_false in Hx. rewrite Hx. lia. Qed.

  Lemma count_cases a x : (forall h, In h a -> (x <= phi h)%R) \/ exists h, In h a /\ (phi h < x)%R.
  Proof.
    induction a as [|h a IH]; [left; intros h []|]. destruct (Rlt_dec (phi h) x) as [H|H]; [right; exists h; split; [now left|exact H]|].
    destruct IH as [IH|(h' & H1 & H2)]; [left; intros h' [<-|Hh']; [lra|auto]|right; exists h'; split; [now right|exact H2]].
  Qed.

  Lemma pops_phi agenda top rest : good_agenda agenda -> pops A True agenda top rest -> forall h, In h rest -> (phi h <= phi top)%R.
  Proof.
    intros HG [HP Hmax] h Hh. apply (good_perm HP) in HG as [(h1 & E1 & _)|HF]; [injection E1 as -> ->; destruct Hh|]. inversion HF as [|? ? Ht Hr]; subst.
    rewrite (phi_exact Ht). rewrite Forall_forall in Hr. rewrite (phi_exact (Hr _ Hh)). specialize (Hmax Logic.I h Hh). simpl in Hmax. now apply Rltb_false in Hmax.
  Qed.
  Lemma best_perm a b found : Permutation a b -> best_state a found -> best_state b found.
  Proof.
    intros HP [H1 H2 H3 H4 H5]. constructor; auto.
    - eapply ok_state_perm; eauto.
    - eapply good_perm; eauto.
    - intros f h Hf Hh. apply H3; [exact Hf|]. eapply Permutation_in; [symmetry|]; eauto.
    - intros ks HK. destruct (H5 ks HK) as [H|[(h & Hh & Hs)|(Ha & Hb)]]; [now left|right; left; exists h; split; [eapply Permutation_in; eauto|exact Hs]|].
      right. right. split; [exact Ha|]. now rewrite <- (count_perm _ HP).
  Qed.

  Lemma found_value top ks : h_node top = 0 -> leads A s E top ks -> exact top -> Path E 0 len ks -> value (idx ks) = phi top.
  Proof.
    intros H0 [Hn _] Ht HP. rewrite (value_idx HP), (phi_exact Ht). destruct Ht as (ks' & (Hn' & _) & -> & _). rewrite Hn in Hn'. apply app_last_inv, idx_inj in Hn'. subst ks'.
    rewrite H0, bk_0. lra.
  Qed.
  Lemma sorted_snoc L x : StronglySorted (fun x y => (y <= x)%R) L -> (forall y, In y L -> (x <= y)%R) -> StronglySorted (fun x y => (y <= x)%R) (L ++ [x]).
  Proof.
    induction 1 as [|y L HS IH HF]; intros Hx; simpl; [repeat constructor|]. constructor; [apply IH; intros; apply Hx; now right|].
    apply Forall_app. split; [exact HF|]. constructor; [apply Hx; now left|constructor].
  Qed.

  Lemma best_found_step top rest found ks : h_node top = 0 -> leads A s E top ks -> Path E 0 len ks -> (forall h, In h rest -> (phi h <= phi top)%R) ->
    best_state (top :: rest) found ->
    good_agenda rest /\ (forall f h, In f (found ++ [idx ks]) -> In h rest -> (phi h <= value f)%R) /\
    StronglySorted (fun x y => (y <= x)%R) (map value (found ++ [idx ks])) /\
    forall p, Path E 0 len p -> In (idx p) (found ++ [idx ks]) \/ (exists h, In h rest /\ suffix (chain h) (full (idx p))) \/
      ((forall f, In f (found ++ [idx ks]) -> (total E p <= value f)%R) /\ n <= length (found ++ [idx ks]) + count rest (total E p)).
  Proof.
    intros H0 Hl HP Hmax [H1 H2 H3 H4 H5]. assert (HF : Forall exact (top :: rest)).
    { destruct H2 as [(h & Eh & [[Hx _] _])|HF]; [|exact HF]. injection Eh as -> ->. congruence. }
    inversion HF as [|? ? Ht Hr]; subst. assert (Hv := found_value H0 Hl Ht HP). splits.
    - now right.
    - intros f h Hf Hh. apply in_app_iff in Hf as [Hf|[<-|[]]]; [apply H3; [exact Hf|now right]|]. rewrite Hv. auto.
    - rewrite map_app. apply sorted_snoc; [exact H4|]. intros y Hy. apply in_map_iff in Hy as (f & <- & Hf). rewrite Hv. apply H3; [exact Hf|now left].
    - intros p HPp. destruct (H5 p HPp) as [H|[(h & [<-|Hh] & Hs)|(Ha & Hb)]].
      + left. apply in_or_app. now left.
      + left. apply in_or_app. right. left. destruct Hs as (w & Hw). unfold chain in Hw. rewrite H0, (proj1 Hl) in Hw. destruct w as [|x w].
        * unfold full in Hw. simpl in Hw. injection Hw as Hw. now apply app_last_inv in Hw.
        * exfalso. unfold full in Hw. simpl in Hw. injection Hw as _ Hw. assert (Hin : In 0 (idx p ++ [1])) by (rewrite Hw; apply in_or_app; right; now left).
          apply in_app_iff in Hin as [Hin|[Hin|[]]]; [|discriminate]. apply in_map_iff in Hin as (k & Hk & _). discriminate.
      + right. left. exists h. auto.
      + right. right. rewrite app_length. simpl. rewrite count_cons in Hb. split.
        * intros f Hf. apply in_app_iff in Hf as [Hf|[<-|[]]]; [auto|]. rewrite Hv. destruct (Rltb (phi top) (total E p)) eqn:Et; [|now apply Rltb_false in Et].
          exfalso. apply Rltb_true in Et. rewrite count_zero in Hb; [destruct H1 as [_ _ _ H1]; lia|]. intros h Hh. specialize (Hmax h Hh). lra.
        * destruct (Rltb (phi top) (total E p)); lia.
  Qed.

  Lemma suffix_grow (c w : list nat) x : suffix c (x :: w) -> c <> x :: w -> exists y, suffix (y :: c) (x :: w).
  Proof.
    intros (v & Hv) Hc. destruct v as [|a v] using rev_ind; [simpl in Hv; congruence|]. exists a. exists v. rewrite Hv, <- app_assoc. reflexivity.
  Qed.
  Lemma best_expand_step top rest found : h_node top <> 0 -> (forall h, In h rest -> (phi h <= phi top)%R) ->
    best_state (top :: rest) found -> best_state (rest ++ map (child A s E l top) (ends G (pos_of G (h_node top)))) found.
  Proof.
    intros H0 Hmax [H1 H2 H3 H4 H5]. assert (HG := good_each H2). inversion HG as [|? ? Ht Hr]; subst.
    set (hs := map (child A s E l top) (ends G (pos_of G (h_node top)))).
    assert (Hhs : forall h, In h hs -> exact h /\ (phi h <= phi top)%R).
    { intros h Hh. apply in_map_iff in Hh as (i & <- & Hi). split; [now apply child_exact|now apply child_le]. }
    constructor; auto.
    - apply ok_expand_step; auto.
    - right. apply Forall_app. split.
      + destruct H2 as [(h & Eh & _)|HF]; [injection Eh as -> ->; constructor|now inversion HF].
      + apply Forall_forall. intros h Hh. now apply Hhs.
    - intros f h Hf Hh. apply in_app_iff in Hh as [Hh|Hh]; [apply H3; [exact Hf|now right]|]. destruct (Hhs h Hh) as [_ Hx].
      specialize (H3 f top Hf (or_introl eq_refl)). lra.
    - intros ks HP. destruct (H5 ks HP) as [H|[(h & [<-|Hh] & Hs)|(Ha & Hb)]].
      + now left.
      + right. left. destruct (tail_gx Ht H0) as (b & Hc & HPb & _). 
        destruct Hs as (w & Hw). destruct w as [|x w] using rev_ind; [exfalso; unfold full, chain in Hw; simpl in Hw; congruence|]. clear IHw.
        rewrite <- app_assoc in Hw. exists (child A s E l top x). split.
        * apply in_or_app. right. apply in_map. destruct w as [|y w].
          { unfold full in Hw. simpl in Hw. injection Hw as <- Hw. rewrite Hc in Hw. apply app_last_inv, idx_inj in Hw. subst b.
            apply ends_spec. split; [discriminate|]. exists (bos_span A). split; [reflexivity|]. unfold s_end. simpl. 
            exact (Path_same HP HPb). }
          { unfold full in Hw. simpl in Hw. injection Hw as _ Hw. change (x :: chain top) with ([x] ++ chain top) in Hw. rewrite Hc, !app_assoc in Hw. apply app_last_inv in Hw.
            apply idx_app_inv in Hw as (a & Ha & ->). destruct a as [|k a] using rev_ind; [now destruct w|]. clear IHa. rewrite idx_app in Ha. apply app_inj_tail in Ha as [_ ->].
            destruct (Path_split _ _ HP) as (m & HPa & HPm). apply Path_snoc_inv in HPa as (e & Hk & He & _). apply ends_spec. split; [discriminate|]. exists e. split; [exact Hk|].
            rewrite He. exact (Path_same HPm HPb). }
        * exists w. exact Hw.
      + right. left. exists h. split; [apply in_or_app; now left|exact Hs].
      + right. right. split; [exact Ha|]. rewrite count_cons in Hb. rewrite count_app. destruct (Rltb (phi top) (total E ks)) eqn:Et; [lia|]. apply Rltb_false in Et.
        destruct (child_eq Ht H0) as (i & Hi & He). assert (Hp := @count_pos hs (total E ks) (child A s E l top i) (in_map _ _ _ Hi)). rewrite He in Hp. specialize (Hp Et). lia.
  Qed.

  (** Dropping hypotheses that are worse than [n] others. *)
  Lemma best_drop agenda dropped found : n <= length agenda -> Forall exact (agenda ++ dropped) ->
    (forall h d, In h agenda -> In d dropped -> (phi d <= phi h)%R) -> best_state (agenda ++ dropped) found -> best_state agenda found.
  Proof.
    intros Hn HF Hd [H1 H2 H3 H4 H5]. constructor; auto.
    - eapply ok_state_drop; eauto.
    - right. now apply Forall_app in HF.
    - intros f h Hf Hh. apply H3; [exact Hf|]. apply in_or_app. now left.
    - intros ks HP. destruct (H5 ks HP) as [H|[(h & Hh & Hs)|(Ha & Hb)]]; [now left| |].
      + apply in_app_iff in Hh as [Hh|Hh]; [right; left; eauto|]. right. right. rewrite Forall_forall in HF. assert (Hx : exact h) by (apply HF, in_or_app; now right).
        assert (Hle := extends_le (or_introl Hx) HP Hs). split.
        * intros f Hf. assert (H := H3 f h Hf (in_or_app _ _ _ (or_intror Hh))). lra.
        * rewrite count_all; [lia|]. intros h' Hh'. specialize (Hd h' h Hh' Hh). lra.
      + right. right. split; [exact Ha|]. rewrite count_app in Hb. destruct (count_cases agenda (total E ks)) as [Hall|(h & Hh & Hlt)].
        * rewrite (count_all _ Hall). lia.
        * rewrite (@count_zero dropped) in Hb; [lia|]. intros d Hdd. specialize (Hd h d Hh Hdd). lra.
  Qed.

  Lemma best_shrink top rest found agenda' : h_node top <> 0 -> (forall h, In h rest -> (phi h <= phi top)%R) -> best_state (top :: rest) found ->
    shrinks A True n (rest ++ map (child A s E l top) (ends G (pos_of G (h_node top)))) agenda' -> best_state agenda' found.
  Proof.
    intros H0 Hmax HB Hs. assert (HG := good_each (bs_good HB)). inversion HG as [|? ? Ht Hr]; subst. assert (HB2 := best_expand_step H0 Hmax HB).
    set (big := rest ++ _) in *. assert (HF : Forall exact big).
    { unfold big. apply Forall_app. split.
      - destruct (bs_good HB) as [(h & Eh & _)|HF]; [injection Eh as -> ->; constructor|now inversion HF].
      - apply Forall_forall. intros h Hh. apply in_map_iff in Hh as (i & <- & Hi). now apply child_exact. }
    unfold shrinks in Hs. destruct (N.ltb_spec k_max_agenda_size (N.of_nat (length big))) as [Hlt|Hle]; [|now subst agenda'].
    destruct Hcut as [Hn|Hfew].
    - apply pops_many_perm in Hs as (dropped & HP & Hl & Hd). apply (best_perm HP) in HB2. assert (HF2 := Permutation_Forall HP HF).
      eapply best_drop; [|exact HF2| |exact HB2].
      + rewrite Hl. unfold k_min_agenda_size. lia.
      + intros h d Hh Hdd. specialize (Hd Logic.I h d Hh Hdd). simpl in Hd. apply Rltb_false in Hd. rewrite Forall_forall in HF2.
        rewrite (phi_exact (HF2 h (in_or_app _ _ _ (or_introl Hh)))), (phi_exact (HF2 d (in_or_app _ _ _ (or_intror Hdd)))). exact Hd.
    - exfalso. destruct (@extensions big) as (L & HL & HN & HP & _).
      + eapply Forall_impl; [|exact HF]. auto.
      + destruct (bs_ok HB2) as [_ _ Ha _]. now apply all_apart_app in Ha.
      + specialize (Hfew L HN HP). rewrite HL in Hfew. unfold k_max_agenda_size in Hlt. lia.
  Qed.

  Lemma best_step st st' : best_search st -> search_step A True l n st st' -> best_search st'.
  Proof.
    intros HB H. destruct H as [found|agenda top rest found path HPop Hv Hlen|agenda top rest found path HPop Hv Hlen|agenda top rest found hs agenda' HPop Hv Hs|agenda top rest found HPop Hv]; simpl in HB |- *.
    1: { destruct HB as [H1 H2 H3 H4 H5]. split; [exact H4|]. intros ks HP Hni. exfalso. destruct (H5 ks HP) as [H|[(h & [] & _)|(_ & Hn)]]; [contradiction|].
      destruct H1 as [_ _ _ H1]. change (count [] (total E ks)) with 0 in Hn. lia. }
    all: assert (Hmax := pops_phi (bs_good HB) HPop); apply (best_perm (proj1 HPop)) in HB;
      assert (Ht : hyp_ok A s E top) by (destruct (bs_ok HB) as [H1 _ _ _]; now inversion H1);
      destruct (visit_spec I Hne Hid Ht) as [(H0 & ks & Hl & HP & Hv')|(H0 & Hv')]; rewrite Hv in Hv'; try discriminate.
    - injection Hv' as ->. destruct (best_found_step H0 Hl HP Hmax HB) as (H1 & H2 & H3 & H4). split; [exact H3|]. intros p HPp Hni. split; [exact Hlen|].
      destruct (H4 p HPp) as [H|[(h & Hh & Hs)|(Ha & _)]]; [contradiction| |exact Ha]. intros f Hf.
      assert (Hg := good_each H1). rewrite Forall_forall in Hg. assert (Hle := extends_le (Hg h Hh) HPp Hs). specialize (H2 f h Hf Hh). lra.
    - injection Hv' as ->. destruct (best_found_step H0 Hl HP Hmax HB) as (H1 & H2 & H3 & H4).
      destruct (ok_found_step H0 Hl HP (bs_ok HB)) as (G1 & G2 & G3). constructor; auto. constructor; auto.
      destruct (bs_ok HB) as [_ _ _ H5]. rewrite app_length in *. simpl in *. lia.
    - injection Hv' as ->. eapply best_shrink; eauto.
  Qed.
  Lemma best_runs st r : best_search st -> search_runs A True l n st r -> exists found, r = Ok found /\ best found.
  Proof.
    intros HB H. induction H as [r|st st' r Hs H IH].
    - destruct r as [found| | |]; simpl in HB; try contradiction. eauto.
    - apply IH. eapply best_step; eauto.
  Qed.
  Lemma best_first h : 1 <= n -> first h -> best_search (Running [h] []).
  Proof.
    intros Hn Hf. constructor.
    - constructor; simpl; auto.
      + constructor; [now apply first_ok|constructor].
      + split; [intros b []|auto].
    - left. eauto.
    - intros f h0 [].
    - constructor.
    - intros ks HP. right. left. exists h. split; [now left|]. destruct Hf as [[H1 H2] _]. exists (0 :: idx ks). unfold chain. rewrite H1, H2. reflexivity.
  Qed.
End Exact.
