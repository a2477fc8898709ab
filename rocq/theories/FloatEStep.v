(** The rounding errors of the marginals of one piece and of the E-step. *)
From Coq Require Import ZArith Reals Psatz Permutation.
From Flocq Require Import Core Relative BinarySingleNaN.
From Verif Require Import Base BaseProofs F64 F64Proofs FloatErr Model SpecModel EncodeProofs Par ParProofs Lattice SpecLattice LatticeProofs PopulateProofs RealArith SpecMarginal MarginalProofs
  PropLattice PropMarginal Prune PruneProofs SpecPrune EStepProofs SpecNumeric SpecExp LseProofs FloatMarginal FloatSum.
Set Implicit Arguments.
Local Open Scope nat_scope.

Lemma denormal_pos : (0 < denormal <= 1)%R.
Proof. unfold denormal. split; [apply bpow_gt_0|]. change 1%R with (bpow radix2 0). apply bpow_le. lia. Qed.
Lemma sum_filter_map {X} (f : X -> R) (b : X -> bool) L : sum f (filter b L) = sum (fun x => if b x then f x else 0%R) L.
Proof. apply sum_filter. Qed.
Lemma sum_const {X} (c : R) (L : list X) : sum (fun _ => c) L = (INR (length L) * c)%R.
Proof. induction L as [|x L IH]; [rewrite sum_nil; simpl; lra|]. rewrite sum_cons, IH. cbn [length]. rewrite S_INR. lra. Qed.

Lemma not_normal_small (z : f64) : is_finite z = true -> f_is_normal z = false -> (Rabs (B2R z) <= bpow radix2 (-1022))%R.
Proof.
  destruct z as [sg|sg| |sg mt e He]; intros Hf Hn; try discriminate Hf.
  - unfold B2R. rewrite Rabs_R0. apply bpow_ge_0.
  - unfold f_is_normal in Hn. apply Z.leb_gt in Hn. unfold B2R. rewrite <- F2R_Zabs, abs_cond_Zopp. cbn [Z.abs].
    clear Hf. assert (Hb := He). clear He. unfold SpecFloat.bounded in Hb. apply andb_prop in Hb as [He _]. unfold SpecFloat.canonical_mantissa in He. apply Zeq_bool_eq in He. rewrite Digits.Zpos_digits2_pos in He.
    assert (Hd : (Digits.Zdigits radix2 (Z.pos mt) <= 52)%Z).
    { apply Digits.Zdigits_le_Zpower. rewrite Z.abs_eq by lia. exact Hn. }
    assert (Ee : e = (-1074)%Z). { revert He. unfold SpecFloat.fexp, SpecFloat.emin, prec64, emax64. clear Hn. intros. lia. }
    subst e. unfold F2R. cbn [Fnum Fexp]. replace (bpow radix2 (-1022)) with (bpow radix2 52 * bpow radix2 (-1074))%R by (rewrite <- bpow_plus; reflexivity).
    apply Rmult_le_compat_r; [apply bpow_ge_0|]. change (bpow radix2 52) with (IZR (2 ^ 52)). apply IZR_le. lia.
Qed.

Section Piece.
  Variables (expf lnf : f64 -> f64).
  Hypothesis Hexp : accurate_exp expf.
  Hypothesis Hln : accurate_ln lnf.
  Local Notation A := (f64_arith expf lnf).
  Variables (s : bytes) (E : list (span f64)) (l : lattice f64) (S : R).
  Hypothesis I : inv A s E l.
  Hypothesis Hne : non_empty E.
  Hypothesis HS : (0 <= S)%R.
  Hypothesis Hsc : forall e, In e E -> is_finite (s_score e) = true /\ (Rabs (B2R (s_score e)) <= S)%R.
  Local Notation len := (length s).
  Local Notation ER := (map to_real E).
  Hypothesis HR : starts_reachable ER len.
  Hypothesis HC : ends_continued ER len.
  Hypothesis Hcap : (cap (length s) (length E + 3) S <= 1125899906842624)%R.
  Local Notation ue := (update_error s E S).
  Hypothesis Herr : (ue <= 1)%R.

  Definition many (t : nat) : nat := length (filter (for_token E t) (seq 0 (length E))).
  Definition chances (t : nat) : R := sum (fun k => if for_token E t k then chance s E k else 0%R) (seq 0 (length E)).

  Lemma marginal_tally expected : (forall k, k < length E -> N.to_nat (id ER k) < length expected) ->
    exists expected' z add, populate_marginal A l expected = Ok (expected', z) /\ length expected' = length expected /\
      is_finite z = true /\ (Rabs (B2R z - ln (F ER len)) <= (INR (length E) + 1) * unit_error (cap len (length E + 3) S))%R /\
      forall t, t < length expected -> (0 <= add t <= 4 * INR (many t))%R /\
        (exp (- ue) * chances t - INR (many t) * denormal <= add t <= exp ue * chances t + INR (many t) * denormal)%R /\
        forall n r, tally n (nth t expected f0) r -> (INR (n + many t) * (2 * ulp_half) <= 1)%R -> (r + add t <= big)%R -> tally (n + many t) (nth t expected' f0) (r + add t).
  Proof.
    intros Hids. destruct (@fmarginal_spec expf lnf Hexp Hln s E l S I Hne HS Hsc Hcap HR HC Herr expected Hids) as (expected' & z & u & Hrun & Hlen & Fz & Ez & Hu & Hx).
    exists expected', z, (fun t => sum (fun k => B2R (u k)) (filter (for_token E t) (seq 0 (length E)))). do 4 (split; [assumption|]). intros t Ht.
    destruct (HIR I Hne) as (lR & IR). assert (HP := starting_all IR (HneR Hne)). rewrite len_ER in HP.
    assert (HPf : Permutation (filter (for_token E t) (flat_map (starting ER) (seq 0 len))) (filter (for_token E t) (seq 0 (length E)))).
    { clear - HP. induction HP as [|x L M H IH|x y L|L M N H1 IH1 H2 IH2]; cbn [filter]; auto; repeat (match goal with |- context[if ?b then _ else _] => destruct b end); auto; try now constructor. now transitivity (filter (for_token E t) M). }
    assert (Hin : forall k, In k (filter (for_token E t) (seq 0 (length E))) -> k < length E) by (intros k H; apply filter_In in H as [H _]; apply in_seq in H; lia).
    assert (Hd := denormal_pos). assert (He : (exp ue <= 3)%R) by now apply exp_1_3. set (M := filter (for_token E t) (seq 0 (length E))) in *.
    assert (Hch : chances t = sum (chance s E) M) by (unfold chances, M; now rewrite sum_filter).
    split; [|split].
    - split; [apply MarginalProofs.sum_nonneg; intros k Hk; now apply (Hu k (Hin k Hk))|]. apply Rle_trans with (sum (fun _ => 4%R) M).
      + apply sum_le. intros k Hk. apply Hin in Hk. destruct (Hu k Hk) as (_ & _ & _ & H). destruct (chance_bounds I Hne HR HC Hk) as [C0 C1].
        assert (exp ue * chance s E k <= 3 * 1)%R by (apply Rmult_le_compat; try lra; left; apply exp_pos). lra.
      + rewrite sum_const. fold (many t). unfold many. fold M. lra.
    - rewrite Hch. unfold many. fold M. rewrite <- !sum_scal, <- (sum_const denormal M). unfold Rminus.
      replace (- sum (fun _ : nat => denormal) M)%R with (sum (fun _ : nat => (-1) * denormal)%R M) by (rewrite sum_scal; lra). rewrite <- !sum_plus.
      split; apply sum_le; intros k Hk; destruct (Hu k (Hin k Hk)) as (_ & _ & H); lra.
    - intros n r Htl Hn Hr. change (nth t expected' f0) with (fat expected' t). rewrite (Hx t Ht). change (nth t expected f0) with (fat expected t) in Htl.
      assert (El : length (map u (filter (for_token E t) (flat_map (starting ER) (seq 0 len)))) = many t) by (rewrite map_length; unfold many; fold M; exact (Permutation_length HPf)).
      assert (Es : sum (fun v : f64 => B2R v) (map u (filter (for_token E t) (flat_map (starting ER) (seq 0 len)))) = sum (fun k => B2R (u k)) M) by (rewrite sum_map; exact (sum_perm _ HPf)).
      rewrite <- El, <- Es. apply tally_fold.
      + intros v Hv. apply in_map_iff in Hv as (k & <- & Hk). apply (Permutation_in _ HPf) in Hk. destruct (Hu k (Hin k Hk)) as (H1 & H2 & _). auto.
      + exact Htl.
      + rewrite El. exact Hn.
      + rewrite Es. exact Hr.
  Qed.

  (** The sum of the chances is the average number of occurrences. *)
  Lemma chances_uses t L : enumerates L (Path ER 0 len) ->
    F ER len = sum (weight ER) L /\ chances t = sum (fun ks => occurrences ER (N.of_nat t) ks * (weight ER ks / sum (weight ER) L))%R L.
  Proof.
    intros HL. assert (HneR' := HneR Hne). assert (HinR' := HinR I).
    assert (HEn : enumerates (rpaths ER (Datatypes.S len) len) (Path ER 0 len)).
    { destruct (F_enum HneR' HinR' len) as [H1 H2]. split; [exact H1|]. intros ks. rewrite H2. now apply (from_root_complete HneR'). }
    assert (HF : F ER len = sum (weight ER) L) by (unfold F; apply (enum_sum _ HEn HL)). split; [exact HF|].
    set (ne := fun ks : list nat => match ks with [] => false | _ => true end).
    assert (HW : enumerates (filter ne L) (whole ER)).
    { destruct HL as [HN HE]. split; [now apply NoDup_filter|]. intros ks. rewrite filter_In, HE. rewrite (whole_complete HneR' HinR' ks HR HC). destruct ks; simpl; intuition congruence. }
    assert (HO := sum_occurrences HneR' HinR' (N.of_nat t) HW). rewrite len_ER in HO.
    assert (H1 : sum (fun ks => occurrences ER (N.of_nat t) ks * (weight ER ks / sum (weight ER) L))%R L = (/ sum (weight ER) L * sum (fun ks => occurrences ER (N.of_nat t) ks * weight ER ks) (filter ne L))%R).
    { rewrite sum_filter, <- sum_scal. apply sum_ext. intros [|k ks] _; simpl; [unfold occurrences, ids_of; simpl; lra|unfold Rdiv; lra]. }
    rewrite H1, HO, <- sum_scal. apply sum_ext. intros k _. unfold for_token, chance. destruct (Nat.eqb_spec (N.to_nat (id ER k)) t) as [Et|Et], (N.eq_dec (id ER k) (N.of_nat t)) as [En|En]; try lia.
    - rewrite HF. unfold Rdiv. ring.
    - lra.
  Qed.
End Piece.

(** * The E-step *)
Lemma app_same_length {X} (a b x y : list X) : a ++ x = b ++ y -> length a = length b -> a = b /\ x = y.
Proof. revert b. induction a as [|c a IH]; intros [|c' b] H Hl; try discriminate; [auto|]. injection H as -> H. destruct (IH b H) as [-> ->]; [simpl in Hl; lia|auto]. Qed.
Section FEStep.
  Variables (expf lnf : f64 -> f64).
  Hypothesis Hexp : accurate_exp expf.
  Hypothesis Hln : accurate_ln lnf.
  Local Notation A := (f64_arith expf lnf).
  Variable vocab : list scored_token.
  Hypothesis Hfits : fits vocab.
  Let m := model_from vocab.
  Let conv : f64 -> f64 := fun x => x.
  Let convR : f64 -> R := @B2R prec64 emax64.
  Variables (S : R) (W size : nat).
  Hypothesis HS : (0 <= S)%R.
  Hypothesis Hsc : forall t, In t vocab -> is_finite (st_score t) = true /\ (Rabs (B2R (st_score t)) <= S)%R.
  Hypothesis HW : forall t, In t vocab -> length (st_value t) <= W.
  Definition piece_error : R := ((2 * INR (size * W) + 8) * unit_error (cap size (size * W + 3) S))%R.
  Hypothesis Herr : (piece_error <= 1)%R.

  Lemma cap_mono len n : len <= size -> n <= size * W -> (cap len (n + 3) S <= cap size (size * W + 3) S)%R.
  Proof.
    intros H1 H2. apply le_INR in H1. assert (H3 : n + 3 <= size * W + 3) by lia. apply le_INR in H3. unfold cap. assert (INR len * S <= INR size * S)%R by (apply Rmult_le_compat_r; lra). lra.
  Qed.
  Lemma error_mono len n : len <= size -> n <= size * W -> ((2 * INR n + 8) * unit_error (cap len (n + 3) S) <= piece_error)%R.
  Proof.
    intros H1 H2. assert (HM := cap_mono H1 H2). apply le_INR in H2. unfold piece_error, unit_error. assert (Hu : (0 < ulp_half)%R) by (unfold ulp_half; lra). assert (H0 := pos_INR n). assert (Hc := cap_pos len (n + 3) HS).
    apply Rmult_le_compat; try lra.
    - apply Rmult_le_pos; lra.
    - apply Rmult_le_compat_r; lra.
  Qed.
  Lemma cap_fits : (cap size (size * W + 3) S <= 1125899906842624)%R.
  Proof.
    assert (H := Herr). unfold piece_error, unit_error in H. assert (H0 := pos_INR (size * W)). set (n := INR (size * W)) in *. set (c := cap size (size * W + 3) S) in *. assert (Hc : (0 <= c)%R) by now apply cap_pos.
    assert (H8 : (8 * ((c + 64) * ulp_half) <= (2 * n + 8) * ((c + 64) * ulp_half))%R).
    { apply Rmult_le_compat_r; [|lra]. apply Rmult_le_pos; [lra|unfold ulp_half; lra]. }
    unfold ulp_half in *. lra.
  Qed.

  Lemma real_occurs s e : Occurs conv vocab s e -> Occurs convR vocab s (to_real e).
  Proof. intros (t & b & a & H1 & H2 & H3 & H4 & H5 & H6). exists t, b, a. unfold to_real. cbn [s_pos s_id s_len s_score]. rewrite H6. repeat split; auto; apply H1. Qed.
  Lemma occurs_real s e : Occurs convR vocab s e -> exists e0, Occurs conv vocab s e0 /\ to_real e0 = e.
  Proof.
    intros (t & b & a & H1 & H2 & H3 & H4 & H5 & H6). exists (Span (s_pos e) (s_id e) (s_len e) (st_score t)). split.
    - exists t, b, a. cbn [s_pos s_id s_len s_score]. auto 10.
    - unfold to_real. cbn [s_pos s_id s_len s_score]. destruct e as [p i n sc]. cbn [s_score] in H6. cbn [s_pos s_id s_len]. f_equal. now symmetry.
  Qed.

  (** The spans of a piece. *)
  Section Spans.
  Variables (s : bytes) (E : list (span f64)).
  Hypothesis HE : forall e, In e E <-> Occurs conv vocab s e.
  Hypothesis HND : NoDup (map (fun e => (s_pos e, s_id e)) E).
  Local Notation ER := (map to_real E).
  Lemma HER : forall e, In e ER <-> Occurs convR vocab s e.
  Proof.
    intros e. rewrite in_map_iff. split.
    - intros (e0 & <- & H). apply real_occurs. now apply HE.
    - intros H. destruct (occurs_real H) as (e0 & H0 & H1). exists e0. split; [exact H1|now apply HE].
  Qed.
  Lemma HNDR : NoDup (map (fun e => (s_pos e, s_id e)) ER).
  Proof. rewrite map_map. exact HND. Qed.
  Lemma spans_ne : non_empty E.
  Proof. apply Forall_forall. intros e He. apply HE in He. now apply Occurs_inside in He. Qed.
  Lemma spans_few : length E <= length s * W.
  Proof.
    rewrite <- (map_length (fun e => (s_pos e, s_len e)) E). replace (length s * W) with (length (list_prod (seq 0 (length s)) (seq 1 W))) by (rewrite prod_length, !seq_length; reflexivity).
    apply NoDup_incl_length.
    - assert (HF : Forall (Occurs conv vocab s) E) by (apply Forall_forall; intros e; apply HE). revert HF HND. clear. induction E as [|e E' IH]; intros HF HND; cbn [map] in *; [constructor|].
      inversion HF as [|? ? H1 HF']; subst. inversion HND as [|? ? Hni HND']; subst. constructor; [|now apply IH]. intros H. apply Hni. apply in_map_iff in H as (e' & Heq & He'). injection Heq as Hp Hl.
      rewrite Forall_forall in HF'. destruct H1 as (t & b & a & Ht & _ & Es & Hb & Hlen & _), (HF' _ He') as (t' & b' & a' & Ht' & _ & Es' & Hb' & Hlen' & _).
      assert (Ev : st_value t = st_value t').
      { rewrite Es in Es'. apply app_same_length in Es' as [_ Es']; [|congruence]. apply app_same_length in Es' as [Es' _]; [exact Es'|congruence]. }
      assert (Eid : s_id e = s_id e').
      { destruct Ht as [Ha Hl1], Ht' as [Ha' Hl2]. destruct (N.lt_trichotomy (s_id e) (s_id e')) as [Hc|[Hc|Hc]]; [|exact Hc|].
        - exfalso. exact (Hl1 _ _ Hc Ha' (eq_sym Ev)).
        - exfalso. exact (Hl2 _ _ Hc Ha Ev). }
      apply in_map_iff. exists e'. split; [congruence|exact He'].
    - intros x Hx. apply in_map_iff in Hx as (e & <- & He). apply HE in He. assert (H := Occurs_inside He). destruct H as [H1 H2]. unfold s_end in H2. destruct He as (t & _ & _ & [Ht _] & _ & _ & _ & Hl & _).
      apply nth_error_In in Ht. apply HW in Ht. apply in_prod; apply in_seq; lia.
  Qed.
  Lemma many_few t : many E t <= length s.
  Proof.
    unfold many. set (M := filter (for_token E t) (seq 0 (length E))). rewrite <- (map_length (pos ER) M). rewrite <- (seq_length (length s) 0). apply NoDup_incl_length.
    - apply NoDup_map_inj; [apply NoDup_filter, seq_NoDup|]. intros a b Ha Hb Hp. unfold M in Ha, Hb. apply filter_In in Ha as [Ha Ta], Hb as [Hb Tb]. apply in_seq in Ha, Hb. unfold for_token in Ta, Tb. apply Nat.eqb_eq in Ta, Tb.
      destruct (nth_error_lt E (i := a)) as (ea & Ea); [lia|]. destruct (nth_error_lt E (i := b)) as (eb & Eb); [lia|].
      apply (proj1 (NoDup_nth_error _) HND a b); [rewrite map_length; lia|]. rewrite !nth_error_map, Ea, Eb. simpl. unfold pos, id in *. rewrite nth_error_map, Ea in Hp, Ta. rewrite nth_error_map, Eb in Hp, Tb. simpl in *. f_equal. f_equal; [exact Hp|]. lia.
    - intros p Hp. apply in_map_iff in Hp as (k & <- & Hk). apply filter_In in Hk as [Hk _]. apply in_seq in Hk. destruct (nth_error_lt E (i := k)) as (e & He); [lia|]. unfold pos. rewrite nth_error_map, He. simpl.
      apply nth_error_In, HE, Occurs_inside in He as [H1 H2]. unfold s_end in H2. apply in_seq. lia.
  Qed.
  Lemma paths_cuts L : covers vocab s -> all_cuts vocab s L ->
    exists P, enumerates P (Path ER 0 (length s)) /\ sum (weight ER) P = sum (cut_weight vocab) L /\
      forall id, average_uses vocab id L = sum (fun ks => occurrences ER id ks * (weight ER ks / sum (weight ER) P))%R P.
  Proof.
    intros Hc [HN HC]. assert (HE1 : forall e, In e ER -> Occurs convR vocab s e) by (intros e; apply HER). assert (HE2 : forall e, Occurs convR vocab s e -> In e ER) by (intros e; apply HER).
    assert (HneR : non_empty ER) by (apply Forall_forall; intros e He; apply HE1 in He; now apply Occurs_inside in He).
    assert (HinR : Forall (fun e => s_end e <= length s) ER) by (apply Forall_forall; intros e He; apply HE1 in He; now apply Occurs_inside in He).
    destruct (@covers_reachable vocab s ER Hc HER) as [HR HCo].
    assert (HEn : enumerates (rpaths ER (Datatypes.S (length s)) (length s)) (Path ER 0 (length s))).
    { destruct (F_enum HneR HinR (length s)) as [H1 H2]. split; [exact H1|]. intros ks. rewrite H2. now apply from_root_complete. }
    set (P := rpaths ER (Datatypes.S (length s)) (length s)) in *. exists P. split; [exact HEn|].
    assert (HPerm : Permutation (map (ids_of ER) P) L).
    { apply NoDup_Permutation; [|exact HN|].
      - destruct HEn as [HEn1 HEn2]. assert (HF : Forall (Path ER 0 (length s)) P) by (apply Forall_forall; intros ks; apply HEn2). assert (HND' := HNDR).
        clear - HEn1 HF HE1 HND'. induction HEn1 as [|ks P Hni _ IH]; [constructor|]. inversion HF as [|? ? Hp HF']; subst. cbn [map]. constructor; [|auto].
        intros Hx. apply in_map_iff in Hx as (ks' & Hk & Hx). rewrite Forall_forall in HF'. destruct (path_ids_R HE1 HND' (HF' _ Hx) Hp Hk) as [-> _]. contradiction.
      - intros ids. rewrite HC, in_map_iff. split.
        + intros (ks & <- & Hks). apply HEn in Hks. change s with (skipn 0 s). eapply Path_Cut; [exact HE1|exact Hks|lia].
        + intros Hcut. change s with (skipn 0 s) in Hcut. destruct (@Cut_Path _ convR vocab s ER HE2 ids 0 Hcut (Nat.le_0_l _)) as (ks & Hks & <-). exists ks. split; [reflexivity|]. now apply HEn. }
    assert (HWt : forall ks, In ks P -> weight ER ks = cut_weight vocab (ids_of ER ks)).
    { intros ks Hks. apply HEn in Hks. unfold weight, cut_weight. now rewrite (total_score HE1 Hks). }
    assert (HZ : sum (weight ER) P = sum (cut_weight vocab) L) by (rewrite <- (sum_perm _ HPerm), sum_map; now apply sum_ext).
    split; [exact HZ|]. intros id. unfold average_uses. rewrite <- HZ, <- (sum_perm _ HPerm), sum_map. apply sum_ext. intros ks Hks. unfold occurrences. now rewrite (HWt _ Hks).
  Qed.
  End Spans.

  (** What is known about a frequency: [n] additions at most, the exact value would be [y]. *)
  Definition count_ok (n : nat) (x : f64) (y : R) : Prop :=
    exists r, tally n x r /\ (r <= 4 * INR n)%R /\ (exp (- piece_error) * y - INR n * denormal <= r <= exp piece_error * y + INR n * denormal)%R.
  Definition few (n : nat) : Prop := (INR n * (2 * ulp_half) <= 1)%R.
  Lemma few_le a b : a <= b -> few b -> few a.
  Proof. unfold few. intros H Hb. apply le_INR in H. assert (Hu : (0 < ulp_half)%R) by (unfold ulp_half; lra). eapply Rle_trans; [|exact Hb]. apply Rmult_le_compat_r; lra. Qed.
  Lemma few_big n : few n -> (4 * INR n <= big)%R.
  Proof.
    unfold few, ulp_half. intros H. apply Rle_trans with (bpow radix2 54); [simpl; lra|]. apply bpow_le. lia.
  Qed.
  Lemma count_weaken a b x y : a <= b -> count_ok a x y -> count_ok b x y.
  Proof.
    intros H (r & T & H1 & H2). exists r. split; [now apply tally_weaken with a|]. apply le_INR in H. assert (Hd := denormal_pos). assert (INR a * denormal <= INR b * denormal)%R by (apply Rmult_le_compat_r; lra). lra.
  Qed.
  Lemma count_zero : count_ok 0 f0 0.
  Proof. exists (B2R f0). split; [apply tally_one; [reflexivity|simpl; lra]|]. simpl. lra. Qed.
  Lemma count_add a b x x' y y' : count_ok a x y -> count_ok b x' y' -> few (a + b) -> count_ok (a + b + 1) (fadd x x') (y + y').
  Proof.
    intros (r & T & H1 & H2) (r' & T' & H1' & H2') Hf. exists (r + r')%R. assert (Hb := few_big Hf). rewrite !plus_INR in *. simpl (INR 1). assert (Hd := denormal_pos). split; [|lra].
    apply tally_add; [apply tally_weaken with a; [lia|exact T]|apply tally_weaken with b; [lia|exact T']|exact Hf|lra].
  Qed.

  Lemma fpiece_spec s l0 expected rnd dropout k L : Lat A s [] l0 -> fltb f0 dropout = false -> covers vocab s -> length s <= size -> length expected = length vocab -> all_cuts vocab s L ->
    exists l expected' z, populate_nodes A conv m rnd dropout l0 k = Ok (l, k) /\ populate_marginal A l expected = Ok (expected', z) /\ length expected' = length vocab /\
      is_finite z = true /\ (Rabs (B2R z - ln (sum (cut_weight vocab) L)) <= piece_error)%R /\
      forall i, i < length vocab -> forall n y, few (n + length s) -> count_ok n (nth i expected f0) y -> count_ok (n + length s) (nth i expected' f0) (y + average_uses vocab (N.of_nat i) L).
  Proof.
    intros HL0 Hd Hc Hsize Hlen HL.
    destruct (@C38_no_dropout f64 A conv vocab rnd dropout s l0 k Hfits Hd HL0) as (l & E & HP & HLat & HND & HE).
    assert (Hne := spans_ne E HE). assert (I := Lat_inv HLat Hne). assert (HER' := HER E HE). destruct (@covers_reachable vocab s (map to_real E) Hc HER') as [HR HCo].
    assert (Hfew := spans_few E HE HND). assert (HnE : length E <= size * W) by nia. assert (Hcap : (cap (length s) (length E + 3) S <= 1125899906842624)%R) by (eapply Rle_trans; [now apply cap_mono|apply cap_fits]).
    assert (Hue : (update_error s E S <= piece_error)%R) by now apply error_mono.
    assert (Hids : forall k, k < length E -> N.to_nat (id (map to_real E) k) < length expected).
    { intros j Hj. destruct (nth_error_lt E Hj) as (e & He). unfold id. rewrite nth_error_map, He. simpl. apply nth_error_In, HE in He. destruct He as (t & _ & _ & [Ht _] & _). rewrite Hlen. apply nth_error_Some. unfold token_at in Ht. congruence. }
    assert (HscE : forall e, In e E -> is_finite (s_score e) = true /\ (Rabs (B2R (s_score e)) <= S)%R).
    { intros e He. apply HE in He. destruct He as (t & _ & _ & [Ht _] & _ & _ & _ & _ & ->). apply nth_error_In in Ht. now apply Hsc. }
    destruct (@marginal_tally expf lnf Hexp Hln s E l S I Hne HS HscE HR HCo Hcap ltac:(lra) expected Hids) as (expected' & z & add & Hrun & Hl & Fz & Ez & Hadd).
    destruct (paths_cuts E HE HND Hc HL) as (P & HEn & HZ & HU).
    exists l, expected', z. split; [exact HP|]. split; [exact Hrun|]. split; [congruence|]. split; [exact Fz|]. split.
    - destruct (chances_uses I Hne HR HCo 0 HEn) as [HF _]. rewrite <- HZ, <- HF. eapply Rle_trans; [exact Ez|]. eapply Rle_trans; [|exact Hue]. unfold update_error.
      assert (Hd1 := d_bounds HS Hcap). apply Rmult_le_compat_r; [lra|]. assert (H0 := pos_INR (length E)). lra.
    - intros i Hi n y Hn (r & T & H1 & H2). destruct (Hadd i ltac:(lia)) as (A1 & A2 & A3). destruct (chances_uses I Hne HR HCo i HEn) as [_ HCi]. rewrite HU, <- HCi.
      assert (Hmf := @many_few s E HE HND i). assert (Hn' : few (n + many E i)) by (apply few_le with (n + length s); [lia|exact Hn]). assert (Hbig := few_big Hn'). rewrite plus_INR in Hbig.
      apply count_weaken with (n + many E i); [lia|]. exists (r + add i)%R. split; [apply A3; [exact T|exact Hn'|lra]|]. rewrite plus_INR. split; [lra|].
      assert (Hch : (0 <= chances s E i)%R).
      { apply MarginalProofs.sum_nonneg. intros j Hj. apply in_seq in Hj. destruct (for_token E i j); [|lra]. left. apply (chance_bounds I Hne HR HCo). lia. }
      assert (L1 := exp_le Hue). assert (L2 := @exp_le (- piece_error) (- update_error s E S) ltac:(lra)).
      assert (exp (update_error s E S) * chances s E i <= exp piece_error * chances s E i)%R by (apply Rmult_le_compat_r; lra).
      assert (exp (- piece_error) * chances s E i <= exp (- update_error s E S) * chances s E i)%R by (apply Rmult_le_compat_r; lra). lra.
  Qed.

  (** A piece whose normaliser the program would not call normal. *)
  Definition suspect (s : bytes) : Prop := exists L, all_cuts vocab s L /\ (Rabs (ln (sum (cut_weight vocab) L)) <= piece_error + bpow radix2 (-1022))%R.
  Lemma normal_suspect s L z : all_cuts vocab s L -> is_finite z = true -> (Rabs (B2R z - ln (sum (cut_weight vocab) L)) <= piece_error)%R -> f_is_normal z = false -> suspect s.
  Proof.
    intros HL Fz Ez Hz. exists L. split; [exact HL|]. assert (Hs : (Rabs (B2R z) <= bpow radix2 (-1022))%R) by now apply not_normal_small.
    replace (ln (sum (cut_weight vocab) L)) with (- (B2R z - ln (sum (cut_weight vocab) L)) + B2R z)%R by ring. eapply Rle_trans; [apply Rabs_triang|]. rewrite Rabs_Ropp. lra.
  Qed.

  Definition counts (n : nat) (l : list f64) (y : nat -> R) : Prop := length l = length vocab /\ forall i, i < length vocab -> count_ok n (nth i l f0) (y i).
  Lemma counts_ext n l y y' : (forall i, y i = y' i) -> counts n l y -> counts n l y'.
  Proof. intros H [H1 H2]. split; [exact H1|]. intros i Hi. rewrite <- H. now apply H2. Qed.
  Definition bytes_of (ps : list bytes) : nat := length (concat ps).

  Variable c : prune_cfg.
  Hypothesis Hdrop : fltb f0 (pc_dropout c) = false.

  Lemma fsnippets_spec rnd ps : forall l p k expected Ls n y, Pool p -> Forall (covers vocab) ps -> Forall (fun s => length s <= size) ps -> few (n + bytes_of ps) -> counts n expected y ->
    Forall2 (all_cuts vocab) ps Ls ->
    e_snippets A conv f_is_normal c m rnd ps l p k expected = Panic /\ (exists s, In s ps /\ suspect s) \/
    exists l' p' expected', e_snippets A conv f_is_normal c m rnd ps l p k expected = Ok (l', p', k, expected') /\ Pool p' /\
      counts (n + bytes_of ps) expected' (fun i => y i + uses vocab Ls i)%R.
  Proof.
    induction ps as [|s ps IH]; intros l p k expected Ls n y Hp Hc Hs Hn Hy HF; inversion HF as [|? L ? Ls' HL HF']; subst.
    - right. exists l, p, expected. split; [reflexivity|]. split; [exact Hp|]. unfold bytes_of. cbn [concat length]. rewrite Nat.add_0_r. apply counts_ext with y; [|exact Hy]. intros i. unfold uses. rewrite sum_nil. lra.
    - inversion Hc as [|? ? Hcs Hc']; subst. inversion Hs as [|? ? Hss Hs']; subst. cbn [e_snippets].
      destruct (@from_spec f64 A l s p Hp) as (l1 & p1 & Hf & Hp1 & _). rewrite Hf. cbn [bind].
      assert (HL1 : Lat A s [] l1) by exact (@Lat_from _ _ _ _ _ _ _ Hp Hf). unfold bytes_of in Hn. cbn [concat] in Hn. rewrite app_length in Hn. fold (bytes_of ps) in Hn.
      destruct (@fpiece_spec s l1 expected rnd (pc_dropout c) k L HL1 Hdrop Hcs Hss (proj1 Hy) HL) as (l2 & e2 & z & HP & HM & Hl2 & Fz & Ez & Hb). rewrite HP. cbn [bind]. rewrite HM. cbn [bind].
      destruct (f_is_normal z) eqn:Ez'; [|left; split; [reflexivity|]; exists s; split; [now left|]; eapply normal_suspect; eauto].
      destruct (IH l2 p1 k e2 Ls' (n + length s) (fun i => y i + average_uses vocab (N.of_nat i) L)%R Hp1 Hc' Hs') as [[H (s' & H1 & H2)]|(l' & p' & e' & H & Hp' & HW')].
      + revert Hn. apply few_le. lia.
      + split; [exact Hl2|]. intros i Hi. apply Hb; [exact Hi| |now apply Hy]. revert Hn. apply few_le. lia.
      + exact HF'.
      + left. split; [exact H|]. exists s'. split; [now right|exact H2].
      + right. exists l', p', e'. split; [exact H|]. split; [exact Hp'|]. unfold bytes_of. cbn [concat]. rewrite app_length. fold (bytes_of ps). rewrite Nat.add_assoc.
        apply counts_ext with (2 := HW'). intros i. unfold uses. rewrite sum_cons. lra.
  Qed.
End FEStep.

Section FWhole.
  Variables (expf lnf : f64 -> f64).
  Hypothesis Hexp : accurate_exp expf.
  Hypothesis Hln : accurate_ln lnf.
  Local Notation A := (f64_arith expf lnf).
  Variable vocab : list scored_token.
  Hypothesis Hfits : fits vocab.
  Let m := model_from vocab.
  Let conv : f64 -> f64 := fun x => x.
  Variables (S : R) (W : nat).
  Hypothesis HS : (0 <= S)%R.
  Hypothesis Hsc : forall t, In t vocab -> is_finite (st_score t) = true /\ (Rabs (B2R (st_score t)) <= S)%R.
  Hypothesis HW : forall t, In t vocab -> length (st_value t) <= W.
  Local Notation size := max_sample_length.
  Hypothesis Herr : (piece_error S W max_sample_length <= 1)%R.
  Variables (c : prune_cfg) (threads : nat).
  Hypothesis Hdrop : fltb f0 (pc_dropout c) = false.
  Local Notation counts := (counts vocab S W max_sample_length).
  Local Notation suspect := (suspect vocab S W max_sample_length).
  Local Notation cuts_of ss Lss := (Forall2 (fun s Ls => Forall2 (all_cuts vocab) (snippets s) Ls) ss Lss).

  Lemma snippets_bytes s : bytes_of (snippets s) = length s.
  Proof. unfold bytes_of. now rewrite (proj1 (snippets_pieces s)). Qed.
  Lemma fsamples_spec rnd ss : forall l p k expected Lss n y, Pool p -> Forall (covers vocab) ss -> few (n + bytes_of ss) -> counts n expected y -> cuts_of ss Lss ->
    e_samples A conv f_is_normal c m rnd ss l p k expected = Panic /\ (exists s q, In s ss /\ In q (snippets s) /\ suspect q) \/
    exists expected', e_samples A conv f_is_normal c m rnd ss l p k expected = Ok expected' /\ counts (n + bytes_of ss) expected' (fun i => y i + uses vocab (concat Lss) i)%R.
  Proof.
    induction ss as [|s ss IH]; intros l p k expected Lss n y Hp Hc Hn Hy HF; inversion HF as [|? Ls ? Lss' HL HF']; subst.
    - right. exists expected. split; [reflexivity|]. unfold bytes_of. cbn [concat length]. rewrite Nat.add_0_r. apply counts_ext with (2 := Hy). intros i. unfold uses. cbn [concat]. rewrite sum_nil. lra.
    - inversion Hc as [|? ? Hcs Hc']; subst. cbn [e_samples]. fold (snippets s). unfold bytes_of in Hn. cbn [concat] in Hn. rewrite app_length in Hn. fold (bytes_of ss) in Hn.
      destruct (@fsnippets_spec expf lnf Hexp Hln vocab Hfits S W size HS Hsc HW Herr c Hdrop rnd (snippets s) l p k expected Ls n y Hp (covers_snippets Hcs) (snippets_sizes s)) as [[H1 (q & H2 & H3)]|(l' & p' & e' & H1 & Hp' & HW')]; auto.
      + rewrite snippets_bytes. revert Hn. apply few_le. lia.
      + fold m conv in H1. rewrite H1. cbn [bind]. left. split; [reflexivity|]. exists s, q. split; [now left|auto].
      + fold m conv in H1. rewrite H1. cbn [bind]. rewrite snippets_bytes in HW'.
        destruct (IH l' p' k e' Lss' (n + length s) _ Hp' Hc' ltac:(revert Hn; apply few_le; lia) HW' HF') as [[H (s' & q & H2 & H3)]|(e2 & H & HW2)].
        * left. split; [exact H|]. exists s', q. split; [now right|exact H3].
        * right. exists e2. split; [exact H|]. unfold bytes_of. cbn [concat]. rewrite app_length. fold (bytes_of ss). rewrite Nat.add_assoc. apply counts_ext with (2 := HW2).
          intros i. unfold uses. rewrite sum_app. lra.
  Qed.
  Lemma fchunk_spec rnd ss Lss : Forall (covers vocab) ss -> few (bytes_of ss) -> cuts_of ss Lss ->
    e_chunk A conv f_is_normal c m rnd ss = Panic /\ (exists s q, In s ss /\ In q (snippets s) /\ suspect q) \/
    exists local, e_chunk A conv f_is_normal c m rnd ss = Ok local /\ counts (bytes_of ss) local (uses vocab (concat Lss)).
  Proof.
    intros Hc Hn HF. unfold e_chunk. destruct (@fsamples_spec rnd ss lattice_new (pool_with_capacity size 16) 0 (repeat f0 (vocab_size m)) Lss 0 (fun _ => 0%R)) as [H|(e & H & Hl)]; auto.
    - constructor.
    - split; [rewrite repeat_length; unfold vocab_size, m; now rewrite ModelProofs.model_from_vocab|]. intros i Hi. rewrite nth_repeat. apply count_zero.
    - right. exists e. split; [exact H|]. apply counts_ext with (2 := Hl). intros i. lra.
  Qed.

  Lemma zip_add_nth_f accs : forall xs i, length accs = length xs -> i < length accs -> nth i (zip_add fadd accs xs) f0 = fadd (nth i accs f0) (nth i xs f0).
  Proof.
    induction accs as [|a accs IH]; intros [|x xs] i H Hi; try discriminate; simpl in *; [lia|]. destruct i as [|i]; [reflexivity|]. apply IH; lia.
  Qed.
  (** The chunks are added to the total one after the other. *)
  Lemma fmerge (T : list (list f64 * (nat * (nat -> R)))) : forall n y total, Forall (fun t => counts (fst (snd t)) (fst t) (snd (snd t))) T ->
    counts n total y -> few (n + list_sum (map (fun t => fst (snd t)) T) + length T) ->
    counts (n + list_sum (map (fun t => fst (snd t)) T) + length T) (fold_left (zip_add fadd) (map fst T) total) (fun i => y i + sum (fun t => snd (snd t) i) T)%R.
  Proof.
    induction T as [|[l [n1 y1]] T IH]; intros n y total HF Hy Hn; cbn [map fold_left list_sum length fold_right fst snd] in *.
    - rewrite !Nat.add_0_r. apply counts_ext with (2 := Hy). intros i. rewrite sum_nil. lra.
    - inversion HF as [|? ? Hl HF']; subst. cbn [fst snd] in Hl. fold (list_sum (map (fun t : list f64 * (nat * (nat -> R)) => fst (snd t)) T)) in *.
      set (q := list_sum _) in *. replace (n + (n1 + q) + Datatypes.S (length T)) with ((n + n1 + 1) + q + length T) in * by lia.
      apply counts_ext with (fun i => (y i + y1 i) + sum (fun t => snd (snd t) i) T)%R; [intros i; rewrite sum_cons; cbn [snd]; lra|]. apply IH; auto.
      destruct Hy as [L1 H3], Hl as [L2 H4]. split; [rewrite zip_add_length; exact L1|]. intros i Hi. rewrite zip_add_nth_f by lia. apply count_add; auto. revert Hn. apply few_le. lia.
  Qed.

  Lemma list_sum_perm (a b : list nat) : Permutation a b -> list_sum a = list_sum b.
  Proof. induction 1; cbn [list_sum fold_right] in *; unfold list_sum in *; lia. Qed.
  (** The bytes of the samples and one for each sample. *)
  Definition workload (samples : list bytes) : nat := length (concat samples) + length samples.
  Lemma workload_chunks cs : Forall (fun x : list bytes => x <> []) cs -> list_sum (map bytes_of cs) + length cs <= workload (concat cs).
  Proof.
    induction 1 as [|x cs Hx _ IH]; [cbn; lia|]. cbn [map list_sum fold_right concat length]. fold (list_sum (map bytes_of cs)). unfold workload in *. rewrite concat_app, !app_length.
    fold (bytes_of x). destruct x; [congruence|]. cbn [length]. lia.
  Qed.

  Lemma festep_spec samples r : Forall (covers vocab) samples -> few (workload samples) -> e_step_result expf lnf threads c m samples r ->
    r = Panic /\ (exists s q, In s samples /\ In q (snippets s) /\ suspect q) \/
    exists freqs, r = Ok freqs /\ forall Lss, cuts_of samples Lss -> counts (workload samples) freqs (uses vocab (concat Lss)).
  Proof.
    intros Hc Hn H. assert (Hcs : forall cs, cs = chunks (par_chunk_size threads (length samples) 8) samples -> concat cs = samples /\ Forall (fun x => x <> []) cs /\ forall x, In x cs -> Forall (covers vocab) x).
    { intros cs ->. split; [apply chunks_concat, par_chunk_pos|]. split; [apply Forall_forall; intros x Hx E; assert (Hz := chunks_loop_sizes (par_chunk_pos threads (length samples) 8) (length samples) samples); rewrite Forall_forall in Hz; specialize (Hz x Hx); rewrite E in Hz; simpl in Hz; lia|]. intros x Hx. apply Forall_forall. intros s Hs. rewrite Forall_forall in Hc. apply Hc.
      rewrite <- (chunks_concat samples (par_chunk_pos threads (length samples) 8)). apply in_concat. eauto. }
    assert (Hfew : forall cs x, concat cs = samples -> In x cs -> few (bytes_of x)).
    { intros cs x E Hx. revert Hn. apply few_le. rewrite <- E. unfold workload. apply in_split in Hx as (c1 & c2 & ->). unfold bytes_of. rewrite !concat_app, !app_length. cbn [concat]. rewrite concat_app, app_length. lia. }
    unfold e_step_result in H. fold conv in H. inversion H as [rnds locals order cs Hl Hloc HP|rnd chunk Hin HE]; subst.
    - right. eexists. split; [reflexivity|]. intros Lss HF. change (a_add A) with fadd. change (a_zero A) with f0.
      assert (Hm : vocab_size m = length vocab) by (unfold vocab_size, m; now rewrite ModelProofs.model_from_vocab).
      destruct (Hcs cs eq_refl) as (Econ & Hnn & Hcov). rewrite <- Econ in HF. apply Forall2_chunks in HF as (LL & -> & HF).
      assert (HT : exists T, locals = map fst T /\ map (fun t => fst (snd t)) T = map bytes_of cs /\ (forall i, sum (fun t => snd (snd t) i) T = uses vocab (concat (concat LL)) i) /\
        Forall (fun t => counts (fst (snd t)) (fst t) (snd (snd t))) T).
      { assert (Hfe : forall x, In x cs -> few (bytes_of x)) by (intros x; now apply Hfew). clearbody cs. clear - Hl Hloc HF Hcov Hfe Hexp Hln Hfits HS Hsc HW Herr Hdrop. revert rnds locals Hl Hloc.
        induction HF as [|chunk Ls cs LL HL HF IH]; intros rnds [|local locals] Hl Hloc; try discriminate.
        - exists []. repeat split; auto.
        - destruct (IH (fun x Hx => Hcov x (or_intror Hx)) (fun x Hx => Hfe x (or_intror Hx)) (fun i => rnds (Datatypes.S i)) locals ltac:(simpl in Hl; lia) (fun i => Hloc (Datatypes.S i))) as (T & -> & E1 & E2 & HT).
          assert (Hrun := Hloc 0 chunk local eq_refl eq_refl). destruct (@fchunk_spec (rnds 0) chunk Ls (Hcov _ (or_introl eq_refl)) (Hfe _ (or_introl eq_refl)) HL) as [[Hp _]|(local' & Hp & Hb)]; rewrite Hrun in Hp; [discriminate|].
          injection Hp as <-. exists ((local, (bytes_of chunk, uses vocab (concat Ls))) :: T). cbn [map fst snd]. split; [reflexivity|]. split; [now rewrite E1|]. split; [|now constructor].
          intros i. rewrite sum_cons, E2. cbn [concat snd]. rewrite concat_app. unfold uses. rewrite sum_app. reflexivity. }
      destruct HT as (T & -> & E1 & E2 & HT). apply Permutation_sym, Permutation_map_inv in HP as (T' & -> & HP).
      assert (HW' : list_sum (map (fun t => fst (snd t)) T') + length T' <= workload samples).
      { rewrite <- Econ. eapply Nat.le_trans; [|exact (workload_chunks Hnn)]. rewrite <- E1. rewrite map_length in Hl. rewrite <- Hl. rewrite (Permutation_length HP).
        rewrite (list_sum_perm (Permutation_map (fun t : list f64 * (nat * (nat -> R)) => fst (snd t)) HP)). lia. }
      assert (HM := @fmerge T' 0 (fun _ => 0%R) (repeat f0 (vocab_size m))). cbn [plus] in HM.
      assert (HM' := HM (Permutation_Forall HP HT)). clear HM.
      assert (Hz : counts 0 (repeat f0 (vocab_size m)) (fun _ => 0%R)). { split; [now rewrite repeat_length|]. intros i Hi. rewrite nth_repeat. apply count_zero. }
      specialize (HM' Hz (few_le HW' Hn)). split; [exact (proj1 HM')|]. intros i Hi. destruct HM' as [_ HM']. specialize (HM' i Hi). cbv beta in HM'. rewrite <- (sum_perm _ HP), E2, Rplus_0_l in HM'.
      revert HM'. apply count_weaken; assumption.
    - left. split; [reflexivity|]. destruct (Hcs _ eq_refl) as (Econ & _ & Hcov). specialize (Hcov _ Hin).
      destruct (@cuts_exist_all vocab Hfits chunk Hcov) as (Lss & HF). destruct (@fchunk_spec rnd chunk Lss Hcov (Hfew _ _ Econ Hin) HF) as [[_ (s & q & Hs & Hq)]|(local & Hp & _)]; [|fold m in HE; congruence].
      exists s, q. split; [|exact Hq]. rewrite <- Econ. apply in_concat. eauto.
  Qed.

  Lemma festep_total samples : Forall (covers vocab) samples -> few (workload samples) -> exists r, e_step_result expf lnf threads c m samples r.
  Proof.
    intros Hc Hn. set (cs := chunks (par_chunk_size threads (length samples) 8) samples).
    assert (Econ : concat cs = samples) by apply chunks_concat, par_chunk_pos.
    assert (Hfew : forall x, In x cs -> few (bytes_of x)).
    { intros x Hx. revert Hn. apply few_le. rewrite <- Econ. unfold workload. apply in_split in Hx as (c1 & c2 & ->). unfold bytes_of. rewrite !concat_app, !app_length. cbn [concat]. rewrite concat_app, app_length. lia. }
    assert (Hcov : forall x, In x cs -> Forall (covers vocab) x).
    { intros x Hx. apply Forall_forall. intros s Hs. rewrite Forall_forall in Hc. apply Hc. rewrite <- Econ. apply in_concat. eauto. }
    assert (HL : (exists chunk, In chunk cs /\ e_chunk A conv f_is_normal c m (fun _ => f0) chunk = Panic) \/
      exists locals, Forall2 (fun chunk local => e_chunk A conv f_is_normal c m (fun _ => f0) chunk = Ok local) cs locals).
    { revert Hcov Hfew. generalize cs. clear cs Econ. induction cs as [|x cs IH]; intros Hcov Hfew; [right; exists []; constructor|].
      destruct (@cuts_exist_all vocab Hfits x (Hcov x (or_introl eq_refl))) as [Lss HF]. destruct (@fchunk_spec (fun _ => f0) x Lss (Hcov x (or_introl eq_refl)) (Hfew x (or_introl eq_refl)) HF) as [[Hp _]|(local & Hr & _)]; [left; exists x; split; [now left|exact Hp]|].
      destruct IH as [(y & Hy & Hp)|[locals HLs]]; [intros y Hy; apply Hcov; now right|intros y Hy; apply Hfew; now right|left; exists y; split; [now right|exact Hp]|right; exists (local :: locals); now constructor]. }
    destruct HL as [(x & Hx & Hp)|[locals HL]]; [exists Panic; eapply e_step_panic; eassumption|].
    eexists. apply e_step_ok with (rnds := fun _ _ => f0) (locals := locals) (order := locals); [symmetry; exact (Forall2_len HL)| |reflexivity].
    fold cs. clear - HL. intros i chunk local. revert i. induction HL as [|x y xs ys Hxy _ IH]; intros [|i] H1 H2; try discriminate; cbn [nth_error] in H1, H2; [injection H1 as <-; injection H2 as <-; exact Hxy|eapply IH; eauto].
  Qed.
End FWhole.
