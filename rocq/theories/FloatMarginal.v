(** The rounding errors of the marginals (src/lattice.rs) in binary64. *)
From Coq Require Import ZArith Reals Psatz Permutation.
From Flocq Require Import Core Relative BinarySingleNaN.
From Verif Require Import Base F64 F64Proofs FloatErr Trie Model BaseProofs Lattice SpecLattice LatticeProofs PopulateProofs RealArith SpecMarginal MarginalProofs PropMarginal
  SpecNumeric SpecExp DigammaReal DigammaProofs LseProofs.
Set Implicit Arguments.
Local Open Scope nat_scope.

(** A span as a span of real score. *)
Definition to_real (e : span f64) : span R := Span (s_pos e) (s_id e) (s_len e) (B2R (s_score e)).

Section Bounds.
  Variables (expf lnf : f64 -> f64).
  Hypothesis Hexp : accurate_exp expf.
  Hypothesis Hln : accurate_ln lnf.
  Local Notation A := (f64_arith expf lnf).
  (** The length of the sentence, the number of steps, the bound of the scores. *)
  Variables (len K : nat) (S : R).
  Hypothesis HS : (0 <= S)%R.
  Definition cap : R := (INR len * S + 2 * INR K)%R.
  Hypothesis Hcap : (cap <= 1125899906842624)%R.
  Local Notation d := (unit_error cap).

  Lemma cap_pos : (0 <= cap)%R.
  Proof. unfold cap. assert (H := pos_INR K). assert (H2 := pos_INR len). nra. Qed.
  Lemma d_bounds : (0 < d <= 1)%R.
  Proof. assert (H := cap_pos). unfold unit_error, ulp_half. lra. Qed.

  Definition near (p k : nat) (x : f64) (y : R) : Prop :=
    (is_finite x = true /\ 0 < y /\ Rabs (B2R x - ln y) <= INR k * d /\ Rabs (ln y) <= INR p * S + INR k)%R.
  Lemma near_size p k x y : near p k x y -> p <= len -> k <= K -> (Rabs (B2R x) <= cap)%R.
  Proof.
    intros (_ & _ & H1 & H2) Hp Hk. assert (Hd := d_bounds). replace (B2R x) with ((B2R x - ln y) + ln y)%R by ring. eapply Rle_trans; [apply Rabs_triang|]. unfold cap.
    apply le_INR in Hp. apply le_INR in Hk. assert (Hk0 := pos_INR k). assert (INR k * d <= INR k * 1)%R by (apply Rmult_le_compat_l; lra). assert (INR p * S <= INR len * S)%R by (apply Rmult_le_compat_r; lra). lra.
  Qed.
  Lemma near_weaken p k q j x y : p <= q -> k <= j -> near p k x y -> near q j x y.
  Proof.
    intros Hp Hk (F & P & H1 & H2). split; [exact F|]. split; [exact P|]. assert (Hd := d_bounds). apply le_INR in Hp. apply le_INR in Hk.
    assert (INR k * d <= INR j * d)%R by (apply Rmult_le_compat_r; lra). assert (INR p * S <= INR q * S)%R by (apply Rmult_le_compat_r; lra). lra.
  Qed.
  Lemma near_zero : near 0 0 f0 1.
  Proof. split; [reflexivity|]. split; [lra|]. rewrite ln_1. simpl. rewrite Rminus_0_r, Rabs_R0. lra. Qed.
  Lemma near_add p k q s x y : near p k x y -> is_finite s = true -> (Rabs (B2R s) <= INR (q - p) * S)%R -> p <= q -> q <= len -> k <= K ->
    near q (k + 1) (fadd s x) (exp (B2R s) * y).
  Proof.
    intros (F & P & H1 & H2) Fs Hs Hpq Hq Hk. assert (Hd := d_bounds). assert (Hc := cap_pos). rewrite minus_INR in Hs by exact Hpq.
    assert (Hp' := le_INR _ _ Hpq). assert (Hq' := le_INR _ _ Hq). assert (Hk' := le_INR _ _ Hk). assert (Hk0 := pos_INR k). assert (Hp0 := pos_INR p).
    assert (Hln' : ln (exp (B2R s) * y) = (B2R s + ln y)%R) by (rewrite ln_mult, ln_exp by (auto; apply exp_pos); reflexivity).
    assert (Hx : (Rabs (B2R s + B2R x) <= cap)%R).
    { replace (B2R s + B2R x)%R with (B2R s + ((B2R x - ln y) + ln y))%R by ring. eapply Rle_trans; [apply Rabs_triang|]. assert (H3 := Rabs_triang (B2R x - ln y) (ln y)). unfold cap.
      assert (INR k * d <= INR k * 1)%R by (apply Rmult_le_compat_l; lra). assert (INR q * S <= INR len * S)%R by (apply Rmult_le_compat_r; lra). lra. }
    destruct (@fadd_err s x cap Fs F Hx) as [F2 E2]; [apply le_huge; lra|]. split; [exact F2|]. split; [apply Rmult_lt_0_compat; [apply exp_pos|exact P]|]. rewrite Hln', plus_INR. simpl (INR 1). split.
    - replace (B2R (fadd s x) - (B2R s + ln y))%R with ((B2R (fadd s x) - (B2R s + B2R x)) + (B2R x - ln y))%R by ring. eapply Rle_trans; [apply Rabs_triang|].
      assert (cap * ulp_half + tiny <= d)%R by (unfold unit_error, ulp_half, tiny; lra). lra.
    - eapply Rle_trans; [apply Rabs_triang|]. lra.
  Qed.
  Lemma near_lse q m k x z y1 y2 : near q m x y1 -> near q k z y2 -> k <= m -> q <= len -> m <= K -> near q (m + 1) (log_sum_exp A x z false) (y1 + y2).
  Proof.
    intros Hx Hz Hk Hq Hm. apply (near_weaken (Nat.le_refl q) Hk) in Hz. assert (Sx := near_size Hx Hq Hm). assert (Sz := near_size Hz Hq Hm).
    destruct Hx as (Fx & Px & X1 & X2), Hz as (Fz & Pz & Z1 & Z2). destruct (@lse_spec expf lnf Hexp Hln x z cap Fx Fz Sx Sz Hcap) as [F E]. split; [exact F|]. split; [lra|]. rewrite plus_INR. simpl (INR 1). split.
    - assert (L := @lse_lip _ _ _ _ _ Px Pz X1 Z1). match goal with |- (Rabs (?a - ?b) <= _)%R => replace (a - b)%R with ((a - ln (exp (B2R x) + exp (B2R z))) + (ln (exp (B2R x) + exp (B2R z)) - b))%R by ring end.
      eapply Rle_trans; [apply Rabs_triang|]. lra.
    - assert (H := @ln_sum_size _ _ _ Px Pz X2 Z2). lra.
  Qed.

  (** ** Neighbours *)
  Section Neighbours.
  Variables (G : list (span f64)) (nodes : list (node f64)).
  Hypothesis HG : map span_of nodes = G.
  Local Notation sc := (score A G).
  Definition fat (acc : list f64) (i : nat) : f64 := nth i acc f0.
  Lemma fat_error acc i : i < length acc -> nth_error acc i = Some (fat acc i).
  Proof. intros H. apply nth_error_nth'. exact H. Qed.
  Lemma fnode_score o : o < length G -> exists n, nth_error nodes o = Some n /\ n_score n = sc o.
  Proof.
    intros Ho. destruct (nth_error_lt G Ho) as (e & He). destruct (nodes_at _ _ HG He) as (n & Hn & Hs). exists n. split; [exact Hn|]. unfold score. rewrite He, <- Hs. reflexivity.
  Qed.
  Lemma fat_update_same (L : list f64) i x : i < length L -> fat (update L i x) i = x.
  Proof. intros H. unfold fat. apply nth_error_nth. now apply nth_update_same. Qed.
  Lemma fat_update_other (L : list f64) i j x : j <> i -> fat (update L i x) j = fat L j.
  Proof.
    intros Hj. unfold fat. destruct (Nat.lt_ge_cases j (length L)) as [Hl|Hl].
    - apply nth_error_nth. rewrite nth_update_other by exact Hj. now apply nth_error_nth'.
    - rewrite !nth_overflow; [reflexivity|exact Hl|now rewrite update_length].
  Qed.
  Definition fadded (acc acc' : list f64) (is : list nat) : Prop := length acc' = length acc /\ forall j, ~ In j is -> nth_error acc' j = nth_error acc j.
  Lemma fadded_at acc acc' is j : fadded acc acc' is -> ~ In j is -> fat acc' j = fat acc j.
  Proof.
    intros [HL HO] Hj. unfold fat. destruct (Nat.lt_ge_cases j (length acc)) as [Hl|Hl].
    - apply nth_error_nth. rewrite HO by exact Hj. now apply nth_error_nth'.
    - rewrite !nth_overflow; [reflexivity|exact Hl|now rewrite HL].
  Qed.

  Lemma fsum_rest q first i : q <= len -> forall rest acc W y, length acc = length G -> i < length G -> ~ In i rest -> ~ In first rest -> (forall o, In o rest -> o < length G) ->
    forall k m, near q m (fat acc i) y -> (forall o, In o rest -> near q k (fadd (sc o) (fat acc o)) (W o)) -> k <= m -> m + length rest <= K ->
    exists acc', sum_neighbours A nodes first i rest acc = Ok acc' /\ fadded acc acc' [i] /\ near q (m + length rest) (fat acc' i) (y + sum W rest).
  Proof.
    intros Hq. induction rest as [|o rest IH]; intros acc W y Hlen Hi Hni Hnf Hlt k m Hy HY Hkm HK.
    - exists acc. split; [reflexivity|]. split; [split; auto|]. rewrite sum_nil, Rplus_0_r. simpl. rewrite Nat.add_0_r. exact Hy.
    - cbn [sum_neighbours length] in *. rewrite (index_Some _ _ (@fat_error acc i ltac:(lia))). cbn [bind].
      assert (Ho : o < length G) by (apply Hlt; now left). destruct (fnode_score Ho) as (n & Hn & Hs). rewrite (index_Some _ _ Hn). cbn [bind].
      rewrite (index_Some _ _ (@fat_error acc o ltac:(lia))). cbn [bind]. rewrite Hs.
      assert (Ef : (o =? first) = false). { apply Nat.eqb_neq. intros ->. apply Hnf. now left. } rewrite Ef.
      unfold store. assert (Ei : (i <? length acc) = true) by (apply Nat.ltb_lt; lia). rewrite Ei. cbn [bind].
      set (v := log_sum_exp A (fat acc i) (a_add A (sc o) (fat acc o)) false). set (acc1 := update acc i v).
      assert (Hat : fat acc1 i = v) by (apply fat_update_same; lia).
      assert (Hat' : forall j, j <> i -> fat acc1 j = fat acc j) by (intros j; apply fat_update_other).
      destruct (IH acc1 W (y + W o)%R) with (k := k) (m := m + 1) as (acc' & HE & [HL HO] & HA).
      + unfold acc1. now rewrite update_length.
      + exact Hi.
      + intros H. apply Hni. now right.
      + intros H. apply Hnf. now right.
      + intros o' H. apply Hlt. now right.
      + rewrite Hat. unfold v. apply near_lse with k; auto; [|lia]. apply HY. now left.
      + intros o' H. rewrite Hat'; [apply HY; now right|]. intros ->. apply Hni. now right.
      + lia.
      + lia.
      + exists acc'. split; [exact HE|]. split.
        * split; [rewrite HL; apply update_length|]. intros j Hj. rewrite HO by exact Hj. apply nth_update_other. intros ->. apply Hj. now left.
        * rewrite sum_cons. replace (m + Datatypes.S (length rest)) with (m + 1 + length rest) by lia. replace (y + (W o + sum W rest))%R with (y + W o + sum W rest)%R by lra. exact HA.
  Qed.
  Lemma fsum_neighbours q first i rest acc W k : q <= len -> length acc = length G -> i < length G -> ~ In i (first :: rest) -> NoDup (first :: rest) -> (forall o, In o (first :: rest) -> o < length G) ->
    (forall o, In o (first :: rest) -> near q k (fadd (sc o) (fat acc o)) (W o)) -> k + length rest <= K ->
    exists acc', sum_neighbours A nodes first i (first :: rest) acc = Ok acc' /\ fadded acc acc' [i] /\ near q (k + length rest) (fat acc' i) (sum W (first :: rest)).
  Proof.
    intros Hq Hlen Hi Hni HN Hlt HY HK. cbn [sum_neighbours]. rewrite (index_Some _ _ (@fat_error acc i ltac:(lia))). cbn [bind].
    assert (Ho : first < length G) by (apply Hlt; now left). destruct (fnode_score Ho) as (n & Hn & Hs). rewrite (index_Some _ _ Hn). cbn [bind].
    rewrite (index_Some _ _ (@fat_error acc first ltac:(lia))). cbn [bind]. rewrite Hs, Nat.eqb_refl. unfold log_sum_exp at 1.
    unfold store. assert (Ei : (i <? length acc) = true) by (apply Nat.ltb_lt; lia). rewrite Ei. cbn [bind].
    set (v := a_add A (sc first) (fat acc first)). set (acc1 := update acc i v).
    assert (Hat : fat acc1 i = v) by (apply fat_update_same; lia).
    assert (Hat' : forall j, j <> i -> fat acc1 j = fat acc j) by (intros j; apply fat_update_other).
    assert (Hnf : ~ In first rest) by (inversion HN; assumption).
    destruct (@fsum_rest q first i Hq rest acc1 W (W first)) with (k := k) (m := k) as (acc' & HE & [HL HO] & HA); auto.
    - unfold acc1. now rewrite update_length.
    - intros H. apply Hni. now right.
    - intros o H. apply Hlt. now right.
    - rewrite Hat. unfold v. apply HY. now left.
    - intros o H. rewrite Hat'; [apply HY; now right|]. intros ->. apply Hni. now right.
    - exists acc'. split; [exact HE|]. split; [|exact HA]. split; [rewrite HL; apply update_length|]. intros j Hj. rewrite HO by exact Hj. apply nth_update_other. intros ->. apply Hj. now left.
  Qed.
  Lemma fsum_nodes q others W k : q <= len -> others <> [] -> NoDup others -> (forall o, In o others -> o < length G) -> k + (length others - 1) <= K ->
    forall is acc, length acc = length G -> NoDup is -> (forall i, In i is -> i < length G /\ ~ In i others) ->
    (forall o, In o others -> near q k (fadd (sc o) (fat acc o)) (W o)) ->
    exists acc', sum_nodes A nodes others is acc = Ok acc' /\ fadded acc acc' is /\ forall i, In i is -> near q (k + (length others - 1)) (fat acc' i) (sum W others).
  Proof.
    intros Hq Hn0 HN Hlt HK. destruct others as [|first rest]; [congruence|]. clear Hn0. cbn [length] in *. replace (Datatypes.S (length rest) - 1) with (length rest) in * by lia. induction is as [|i is IH]; intros acc Hlen HNi Hi HY.
    - exists acc. split; [reflexivity|]. split; [split; auto|]. intros i [].
    - cbn [sum_nodes]. destruct (Hi i (or_introl eq_refl)) as [Hi1 Hi2]. destruct (fsum_neighbours acc W Hq Hlen Hi1 Hi2 HN Hlt HY HK) as (acc1 & -> & H1 & H2). cbn [bind].
      assert (Hni : ~ In i is) by (inversion HNi; assumption). assert (HNi' : NoDup is) by (inversion HNi; assumption). destruct (IH acc1) as (acc' & HE & H3 & H4); auto.
      + now rewrite (proj1 H1).
      + intros j Hj. apply Hi. now right.
      + intros o Ho. rewrite (fadded_at _ H1); [auto|]. intros [->|[]]. auto.
      + exists acc'. split; [exact HE|]. split.
        * split; [now rewrite (proj1 H3), (proj1 H1)|]. intros j Hj. rewrite (proj2 H3) by (intros H; apply Hj; now right). apply (proj2 H1). intros [->|[]]. apply Hj. now left.
        * intros j [<-|Hj]; [|auto]. rewrite (fadded_at _ H3) by exact Hni. exact H2.
  Qed.
  Lemma fsum_none is acc : sum_nodes A nodes [] is acc = Ok acc.
  Proof. induction is as [|i is IH]; [reflexivity|]. cbn [sum_nodes bind]. exact IH. Qed.
  End Neighbours.
End Bounds.

Lemma exp_lower : (exp (- (4 * ulp_half)) <= 1 - 2 * ulp_half)%R.
Proof.
  assert (Hu : (0 < ulp_half <= / 100)%R) by (unfold ulp_half; lra). set (u := ulp_half) in *. clearbody u. rewrite exp_Ropp. assert (H := exp_ge_1 (4 * u)).
  apply Rle_trans with (/ (1 + 4 * u))%R; [apply Rinv_le_contravar; lra|]. apply Rmult_le_reg_l with (1 + 4 * u)%R; [lra|]. rewrite Rinv_r by lra. nra.
Qed.

(** * The two passes *)
Section FPasses.
  Variables (expf lnf : f64 -> f64).
  Hypothesis Hexp : accurate_exp expf.
  Hypothesis Hln : accurate_ln lnf.
  Local Notation A := (f64_arith expf lnf).
  Variables (s : bytes) (E : list (span f64)) (l : lattice f64) (S : R).
  Hypothesis I : inv A s E l.
  Hypothesis Hne : non_empty E.
  Hypothesis HS : (0 <= S)%R.
  Hypothesis Hsc : forall e, In e E -> is_finite (s_score e) = true /\ (Rabs (B2R (s_score e)) <= S)%R.
  Local Notation len := (length s).
  Local Notation K := (length E + 3).
  Hypothesis Hcap : (cap (length s) (length E + 3) S <= 1125899906842624)%R.
  Local Notation near := (near (length s) (length E + 3) S).
  Local Notation G := (all_spans A (length s) E).
  Local Notation sc := (score A G).
  Local Notation ER := (map to_real E).
  Local Notation GR := (all_spans R_arith (length s) (map to_real E)).
  Local Notation d := (unit_error (cap (length s) (length E + 3) S)).

  Lemma GR_eq : GR = map to_real G.
  Proof. reflexivity. Qed.
  Lemma len_ER : length ER = length E.
  Proof. apply map_length. Qed.
  Lemma len_GR : length GR = length G.
  Proof. rewrite GR_eq. apply map_length. Qed.
  Lemma HneR : non_empty ER.
  Proof. apply Forall_forall. intros e He. apply in_map_iff in He as (e0 & <- & He). exact (proj1 (Forall_forall _ _) Hne e0 He). Qed.
  Lemma HinR : Forall (fun e => s_end e <= len) ER.
  Proof. apply Forall_forall. intros e He. apply in_map_iff in He as (e0 & <- & He). exact (proj1 (Forall_forall _ _) (i_inside I) e0 He). Qed.
  Lemma HIR : exists lR, inv R_arith s ER lR.
  Proof. destruct (@Lat_exists R R_arith s ER HneR HinR) as (lR & HL). exists lR. exact (Lat_inv HL HneR). Qed.
  Lemma sat_R f g i : (forall e, f (to_real e) = g e) -> sat GR f i = sat G g i.
  Proof. intros H. unfold sat. rewrite GR_eq, nth_error_map. destruct (nth_error G i); simpl; auto. Qed.
  Lemma ends_R p : ends G p = ends GR p.
  Proof. unfold ends. rewrite len_GR. apply filter_ext. intros i. f_equal. symmetry. now apply sat_R. Qed.
  Lemma begins_R p : begins G p = begins GR p.
  Proof. unfold begins. rewrite len_GR. apply filter_ext. intros i. f_equal. symmetry. now apply sat_R. Qed.
  Lemma score_R i : score R_arith GR i = B2R (sc i).
  Proof. unfold score. rewrite GR_eq, nth_error_map. destruct (nth_error G i); reflexivity. Qed.
  Lemma score_ok i : i < length G -> is_finite (sc i) = true /\ (Rabs (B2R (sc i)) <= INR (end_of s ER i - pos_of GR i) * S)%R.
  Proof.
    intros Hi. destruct i as [|[|k]].
    - split; [reflexivity|]. change (B2R (sc 0)) with 0%R. change (end_of s ER 0) with 0. change (pos_of GR 0) with 0. simpl. rewrite Rabs_R0. lra.
    - split; [reflexivity|]. change (B2R (sc 1)) with 0%R. rewrite Rabs_R0. apply Rmult_le_pos; [apply pos_INR|exact HS].
    - change (length G) with (2 + length E) in Hi. assert (Hk : k < length E) by lia. destruct (nth_error_lt E Hk) as (e & He). change (sc (Datatypes.S (Datatypes.S k))) with (match nth_error E k with Some e => s_score e | None => f0 end).
      change (end_of s ER (Datatypes.S (Datatypes.S k))) with (end_ ER k). change (pos_of GR (Datatypes.S (Datatypes.S k))) with (pos ER k). rewrite He. destruct (Hsc _ (nth_error_In _ _ He)) as [F B]. split; [exact F|].
      assert (Hb := k_bounds HneR HinR (k := k)). rewrite len_ER in Hb. specialize (Hb Hk). assert (H1 : (1 <= INR (end_ ER k - pos ER k))%R) by (change 1%R with (INR 1); apply le_INR; lia). nra.
  Qed.

  Lemma KF_le p : KF ER p <= length E.
  Proof. rewrite <- len_ER. unfold KF. rewrite <- (seq_length (length ER) 0) at 2. apply filter_length_le. Qed.
  Lemma KB_le p : KB ER p <= length E.
  Proof. rewrite <- len_ER. unfold KB. rewrite <- (seq_length (length ER) 0) at 2. apply filter_length_le. Qed.

  Definition ff_inv (p : nat) (alpha : list f64) : Prop :=
    length alpha = length G /\
    (forall i, i < length G -> i <> 0 -> pos_of GR i < p -> near (pos_of GR i) (KF ER (pos_of GR i) + 1) (fat alpha i) (F ER (pos_of GR i))) /\
    (forall i, i = 0 \/ p <= pos_of GR i -> fat alpha i = f0).
  Definition fb_inv (p : nat) (beta : list f64) : Prop :=
    length beta = length G /\
    (forall i, i < length G -> i <> 1 -> p <= end_of s ER i -> near (len - end_of s ER i) (KB ER (end_of s ER i) + 1) (fat beta i) (B len ER (end_of s ER i))) /\
    (forall i, i = 1 \/ end_of s ER i < p -> fat beta i = f0).
  Definition kf (p : nat) : nat := match p with 0 => 1 | Datatypes.S q => KF ER q + 2 end.
  Definition kb (p : nat) : nat := if p <? len then KB ER (p + 1) + 2 else 1.

  Lemma pos_le i : i < length G -> pos_of GR i <= len.
  Proof.
    intros Hi. destruct i as [|[|k]]; [change (pos_of GR 0) with 0; lia|change (pos_of GR 1) with len; lia|]. change (pos_of GR (Datatypes.S (Datatypes.S k))) with (pos ER k).
    change (length G) with (2 + length E) in Hi. assert (Hb := k_bounds HneR HinR (k := k)). rewrite len_ER in Hb. lia.
  Qed.
  Lemma term_F p alpha o : p <= len -> ff_inv p alpha -> In o (ends GR p) -> near p (kf p) (fadd (sc o) (fat alpha o)) (exp (score R_arith GR o) * YF s ER o).
  Proof.
    intros Hp (_ & H1 & H2) Ho. rewrite score_R. assert (Ho' := proj1 (ends_at s ER p o) Ho). destruct Ho' as (Ho1 & Ho2 & Ho3). rewrite len_GR in Ho2. destruct (score_ok Ho2) as [Fs Bs].
    destruct (ends_before R_arith len HneR _ _ Ho) as (_ & Hlt & [(-> & ->)|(Hge & Hpo)]).
    - rewrite (H2 0 (or_introl eq_refl)). change (YF s ER 0) with 1%R. apply near_add with (p := 0) (k := 0); auto; try lia; apply near_zero.
    - destruct o as [|o]; [lia|]. change (YF s ER (Datatypes.S o)) with (F ER (pos_of GR (Datatypes.S o))). rewrite Ho3 in Bs. destruct p as [|q]; [lia|].
      assert (Hn := H1 (Datatypes.S o) Ho2 ltac:(lia) Hpo). unfold kf. apply near_weaken with (p := Datatypes.S q) (k := KF ER (pos_of GR (Datatypes.S o)) + 1 + 1); auto.
      + assert (Hm := @KF_mono ER q (pos_of GR (Datatypes.S o))). lia.
      + apply near_add with (p := pos_of GR (Datatypes.S o)); auto; [lia|]. assert (Hk := KF_le (pos_of GR (Datatypes.S o))). lia.
  Qed.
  Lemma term_B p beta o : p <= len -> fb_inv (p + 1) beta -> In o (begins GR p) -> near (len - p) (kb p) (fadd (sc o) (fat beta o)) (exp (score R_arith GR o) * YB s ER o).
  Proof.
    intros Hp (_ & H1 & H2) Ho. rewrite score_R. assert (Ho' := proj1 (begins_at s ER p o) Ho). destruct Ho' as (Ho1 & Ho2 & Ho3). rewrite len_GR in Ho2. destruct (score_ok Ho2) as [Fs Bs].
    destruct o as [|[|k]]; [lia| |].
    - rewrite (H2 1 (or_introl eq_refl)). change (YB s ER 1) with 1%R. change (pos_of GR 1) with len in Ho3. subst p. change (end_of s ER 1) with (len + 0) in Bs. change (pos_of GR 1) with len in Bs. replace (len + 0 - len) with 0 in Bs by lia. unfold kb. rewrite Nat.ltb_irrefl, Nat.sub_diag.
      apply near_add with (p := 0) (k := 0); auto; try lia; apply near_zero.
    - change (length G) with (2 + length E) in Ho2. assert (Hk : k < length E) by lia. assert (Hb := k_bounds HneR HinR (k := k)). rewrite len_ER in Hb. specialize (Hb Hk).
      change (pos_of GR (Datatypes.S (Datatypes.S k))) with (pos ER k) in *. change (end_of s ER (Datatypes.S (Datatypes.S k))) with (end_ ER k) in *.
      change (YB s ER (Datatypes.S (Datatypes.S k))) with (B len ER (end_ ER k)).
      assert (Hn := H1 (2 + k) Ho2 ltac:(lia)). change (end_of s ER (2 + k)) with (end_ ER k) in Hn. specialize (Hn ltac:(lia)). unfold kb. assert (Hlt : (p <? len) = true) by (apply Nat.ltb_lt; lia). rewrite Hlt.
      apply near_weaken with (p := len - p) (k := KB ER (end_ ER k) + 1 + 1); auto.
      + assert (Hm := @KB_mono ER (p + 1) (end_ ER k)). lia.
      + apply near_add with (p := len - end_ ER k); auto; try lia; [replace (len - p - (len - end_ ER k)) with (end_ ER k - pos ER k) by lia; exact Bs|]. assert (Hk' := KB_le (end_ ER k)). lia.
  Qed.

  Lemma ff_step p alpha : p <= len -> ff_inv p alpha ->
    exists alpha', sum_nodes A (l_nodes l) (match begins G p with [] => [] | _ => ends G p end) (begins G p) alpha = Ok alpha' /\ ff_inv (p + 1) alpha'.
  Proof.
    intros Hp HI. destruct HIR as (lR & IR). rewrite begins_R, ends_R. destruct (begins GR p) as [|r0 rs] eqn:Eb.
    - exists alpha. split; [reflexivity|]. destruct HI as (H0 & H1 & H2). split; [exact H0|]. split.
      + intros i Hi Hi0 Hlt. apply H1; auto. destruct (Nat.eq_dec (pos_of GR i) p) as [E1|]; [|lia]. exfalso. assert (Hb : In i (begins GR p)) by (apply begins_at; rewrite len_GR; auto). rewrite Eb in Hb. destruct Hb.
      + intros i Hi. apply H2. lia.
    - rewrite <- Eb. destruct (ends GR p) as [|l0 ls] eqn:Ee.
      + exists alpha. rewrite fsum_none. split; [reflexivity|]. destruct HI as (H0 & H1 & H2). split; [exact H0|]. split.
        * intros i Hi Hi0 Hlt. destruct (Nat.eq_dec (pos_of GR i) p) as [E1|]; [|apply H1; auto; lia]. rewrite (H2 i) by lia. rewrite E1.
          assert (Hen : ending ER p = []). { rewrite ends_G in Ee. apply app_eq_nil in Ee as [_ Ee]. now apply map_eq_nil in Ee. }
          rewrite (F_root ER p Hen). apply near_weaken with (p := 0) (k := 0); auto; try lia. apply near_zero.
        * intros i Hi. apply H2. lia.
      + rewrite <- Ee. assert (Hnn : ends GR p <> []) by congruence. assert (HI' := HI). destruct HI as (H0 & H1 & H2).
        assert (Hcount : kf p + (length (ends GR p) - 1) <= KF ER p + 1).
        { rewrite ends_G in *. destruct (Nat.eqb_spec 0 p) as [<-|Hp0].
          - rewrite (ending_0 HneR HinR). simpl. lia.
          - cbn [app] in *. rewrite map_length. destruct p as [|q]; [lia|]. unfold kf. assert (Hs := @KF_step ER (Datatypes.S q) q). revert Hnn Hs. clear. destruct (ending ER (Datatypes.S q)); intros Hnn Hs; [now elim Hnn|]. cbn [length] in *. lia. }
        assert (HkF := KF_le p).
        destruct (@fsum_nodes expf lnf Hexp Hln len K S HS Hcap G (l_nodes l) (proj1 (i_nodes I)) p (ends GR p) (fun o => exp (score R_arith GR o) * YF s ER o)%R (kf p) Hp Hnn (ends_NoDup _ _)) with (is := begins GR p) (acc := alpha) as (alpha' & HE & [HL HO] & HA).
        * intros o Ho. apply ends_at in Ho. rewrite len_GR in Ho. tauto.
        * lia.
        * exact H0.
        * apply begins_NoDup.
        * intros i Hi. split; [apply begins_at in Hi; rewrite len_GR in Hi; tauto|]. intros He. now apply (ends_not_begins R_arith len HneR) in He.
        * intros o Ho. now apply term_F.
        * exists alpha'. split; [exact HE|]. assert (Hat : forall j, ~ In j (begins GR p) -> fat alpha' j = fat alpha j) by (intros j; apply fadded_at; split; auto). split; [|split].
          -- now rewrite HL.
          -- intros i Hi Hi0 Hlt. destruct (Nat.eq_dec (pos_of GR i) p) as [E1|E1].
             ++ rewrite E1. rewrite <- (sum_F IR HneR p Hnn). assert (Hb : In i (begins GR p)) by (apply begins_at; rewrite len_GR; auto). specialize (HA i Hb). revert HA. apply near_weaken; auto.
             ++ rewrite Hat; [apply H1; auto; lia|]. intros Hb. apply begins_at in Hb. tauto.
          -- intros i Hi. rewrite Hat; [apply H2; lia|]. intros Hb. apply begins_at in Hb. lia.
  Qed.
  Lemma ff_spec n : forall p alpha, p + n = len + 1 -> ff_inv p alpha -> exists alpha', forward A l alpha p n = Ok alpha' /\ ff_inv (len + 1) alpha'.
  Proof.
    induction n as [|n IH]; intros p alpha Hp HI; [exists alpha; split; [reflexivity|]; now replace (len + 1) with p by lia|].
    cbn [forward]. assert (Hp' : p <= len) by lia. rewrite (index_Some _ _ (i_begin I Hp')). cbn [bind]. destruct (ff_step Hp' HI) as (alpha1 & HE & HI1).
    assert (El : (match begins G p with [] => Ok [] | _ :: _ => index (l_end l) p end) = Ok (match begins G p with [] => [] | _ => ends G p end)).
    { destruct (begins G p); [reflexivity|]. apply index_Some. now apply (i_end I). }
    rewrite El. cbn [bind]. rewrite HE. cbn [bind]. apply IH; [lia|exact HI1].
  Qed.
  Lemma fb_step p beta : p <= len -> fb_inv (p + 1) beta ->
    exists beta', sum_nodes A (l_nodes l) (match ends G p with [] => [] | _ => begins G p end) (ends G p) beta = Ok beta' /\ fb_inv p beta'.
  Proof.
    intros Hp HI. destruct HIR as (lR & IR). rewrite begins_R, ends_R. destruct (ends GR p) as [|r0 rs] eqn:Eb.
    - exists beta. split; [reflexivity|]. destruct HI as (H0 & H1 & H2). split; [exact H0|]. split.
      + intros i Hi Hi0 Hlt. apply H1; auto. destruct (Nat.eq_dec (end_of s ER i) p) as [E1|]; [|lia]. exfalso. assert (Hb : In i (ends GR p)) by (apply ends_at; rewrite len_GR; auto). rewrite Eb in Hb. destruct Hb.
      + intros i Hi. apply H2. lia.
    - rewrite <- Eb. destruct (begins GR p) as [|l0 ls] eqn:Ee.
      + exists beta. rewrite fsum_none. split; [reflexivity|]. destruct HI as (H0 & H1 & H2). split; [exact H0|]. split.
        * intros i Hi Hi0 Hlt. destruct (Nat.eq_dec (end_of s ER i) p) as [E1|]; [|apply H1; auto; lia]. rewrite (H2 i) by lia. rewrite E1.
          assert (Hen : starting ER p = []). { rewrite begins_G in Ee. apply app_eq_nil in Ee as [_ Ee]. now apply map_eq_nil in Ee. }
          rewrite (B_sink len ER p Hen). apply near_weaken with (p := 0) (k := 0); auto; try lia. apply near_zero.
        * intros i Hi. apply H2. lia.
      + rewrite <- Ee. assert (Hnn : begins GR p <> []) by congruence. assert (HI' := HI). destruct HI as (H0 & H1 & H2).
        assert (Hcount : kb p + (length (begins GR p) - 1) <= KB ER p + 1).
        { rewrite begins_G in *. unfold kb. destruct (Nat.eqb_spec len p) as [<-|Hp0].
          - rewrite (starting_len HneR HinR (Nat.le_refl _)), Nat.ltb_irrefl. simpl. lia.
          - cbn [app] in *. rewrite map_length. assert (Hlt : (p <? len) = true) by (apply Nat.ltb_lt; lia). rewrite Hlt. assert (Hs := @KB_step ER p (p + 1)). revert Hnn Hs. clear. destruct (starting ER p); intros Hnn Hs; [now elim Hnn|]. cbn [length] in *. lia. }
        assert (HkB := KB_le p).
        destruct (@fsum_nodes expf lnf Hexp Hln len K S HS Hcap G (l_nodes l) (proj1 (i_nodes I)) (len - p) (begins GR p) (fun o => exp (score R_arith GR o) * YB s ER o)%R (kb p) ltac:(lia) Hnn (begins_NoDup _ _)) with (is := ends GR p) (acc := beta) as (beta' & HE & [HL HO] & HA).
        * intros o Ho. apply begins_at in Ho. rewrite len_GR in Ho. tauto.
        * lia.
        * exact H0.
        * apply ends_NoDup.
        * intros i Hi. split; [apply ends_at in Hi; rewrite len_GR in Hi; tauto|]. now apply (ends_not_begins R_arith len HneR).
        * intros o Ho. now apply term_B.
        * exists beta'. split; [exact HE|]. assert (Hat : forall j, ~ In j (ends GR p) -> fat beta' j = fat beta j) by (intros j; apply fadded_at; split; auto). split; [|split].
          -- now rewrite HL.
          -- intros i Hi Hi0 Hlt. destruct (Nat.eq_dec (end_of s ER i) p) as [E1|E1].
             ++ rewrite E1. rewrite <- (sum_B IR HneR p Hnn). assert (Hb : In i (ends GR p)) by (apply ends_at; rewrite len_GR; auto). specialize (HA i Hb). revert HA. apply near_weaken; auto.
             ++ rewrite Hat; [apply H1; auto; lia|]. intros Hb. apply ends_at in Hb. tauto.
          -- intros i Hi. rewrite Hat; [apply H2; lia|]. intros Hb. apply ends_at in Hb. lia.
  Qed.
  Lemma fb_spec n : forall beta, n <= len + 1 -> fb_inv n beta -> exists beta', backward A l beta n = Ok beta' /\ fb_inv 0 beta'.
  Proof.
    induction n as [|p IH]; intros beta Hn HI; [exists beta; auto|].
    cbn [backward]. assert (Hp' : p <= len) by lia. rewrite (index_Some _ _ (i_end I Hp')). cbn [bind]. replace (Datatypes.S p) with (p + 1) in HI by lia. destruct (fb_step Hp' HI) as (beta1 & HE & HI1).
    assert (El : (match ends G p with [] => Ok [] | _ :: _ => index (l_begin l) p end) = Ok (match ends G p with [] => [] | _ => begins G p end)).
    { destruct (ends G p); [reflexivity|]. apply index_Some. now apply (i_begin I). }
    rewrite El. cbn [bind]. rewrite HE. cbn [bind]. apply IH; [lia|exact HI1].
  Qed.

  (** ** The expected frequencies *)
  Section Expected.
  Variables (alpha beta : list f64) (z : f64).
  Hypothesis Ha : length alpha = length G.
  Hypothesis Hb : length beta = length G.
  Definition fscr (k : nat) : f64 := match nth_error E k with Some e => s_score e | None => f0 end.
  Definition ftotal (k : nat) : f64 := fsub (fadd (fadd (fat alpha (2 + k)) (fscr k)) (fat beta (2 + k))) z.
  Definition fupd (k : nat) : f64 := expf (ftotal k).
  Definition for_token (t k : nat) : bool := N.to_nat (id ER k) =? t.

  Lemma fadd_expected ks : forall expected, (forall k, In k ks -> k < length E /\ N.to_nat (id ER k) < length expected) ->
    exists expected', add_expected A (l_nodes l) alpha beta z (map (fun k => 2 + k) ks) expected = Ok expected' /\ length expected' = length expected /\
      forall t, t < length expected -> fat expected' t = fold_left fadd (map fupd (filter (for_token t) ks)) (fat expected t).
  Proof.
    induction ks as [|k ks IH]; intros expected Hk; [exists expected; splits; auto|].
    destruct (Hk k (or_introl eq_refl)) as [Hk1 Hk2]. cbn [map add_expected].
    destruct (nth_error_lt E Hk1) as (e & He). destruct (nodes_at _ _ (proj1 (i_nodes I)) (He : nth_error G (2 + k) = Some e)) as (n & Hn & Hs).
    rewrite (index_Some _ _ Hn). cbn [bind].
    rewrite (index_Some _ _ (@fat_error alpha (2 + k) ltac:(rewrite Ha; change (length G) with (2 + length E); lia))). cbn [bind].
    rewrite (index_Some _ _ (@fat_error beta (2 + k) ltac:(rewrite Hb; change (length G) with (2 + length E); lia))). cbn [bind].
    assert (Eid : n_token_id n = id ER k). { unfold id. rewrite nth_error_map, He, <- Hs. reflexivity. } assert (Esc : n_score n = fscr k). { unfold fscr. rewrite He, <- Hs. reflexivity. }
    rewrite Eid, Esc. rewrite (index_Some _ _ (@fat_error expected (N.to_nat (id ER k)) Hk2)). cbn [bind]. unfold store.
    assert (El : (N.to_nat (id ER k) <? length expected) = true) by now apply Nat.ltb_lt. rewrite El. cbn [bind].
    match goal with |- context[update expected ?j ?v] => set (exp1 := update expected j v) end.
    assert (Hl1 : length exp1 = length expected) by apply update_length.
    destruct (IH exp1) as (expected' & HE & HL & HV).
    { intros j Hj. rewrite Hl1. apply Hk. now right. }
    exists expected'. split; [exact HE|]. split; [congruence|]. intros t Ht. rewrite HV by lia. cbn [filter]. unfold exp1. unfold for_token at 2. destruct (Nat.eqb_spec (N.to_nat (id ER k)) t) as [Et|Et].
    - rewrite <- Et. rewrite fat_update_same by exact Hk2. reflexivity.
    - rewrite fat_update_other by congruence. reflexivity.
  Qed.
  Lemma fadd_positions n : forall p expected, p + n = len -> (forall k, k < length E -> N.to_nat (id ER k) < length expected) ->
    exists expected', add_positions A l alpha beta z p n expected = Ok expected' /\ length expected' = length expected /\
      forall t, t < length expected -> fat expected' t = fold_left fadd (map fupd (filter (for_token t) (flat_map (starting ER) (seq p n)))) (fat expected t).
  Proof.
    induction n as [|n IH]; intros p expected Hp Hk; [exists expected; splits; auto|].
    cbn [add_positions]. rewrite (index_Some _ _ (i_begin I (ltac:(lia) : p <= len))). cbn [bind]. rewrite begins_R, begins_G. destruct (Nat.eqb_spec len p); [lia|]. cbn [app].
    destruct (@fadd_expected (starting ER p) expected) as (exp1 & -> & HL1 & HV1). { intros k Hin'. apply starting_In in Hin' as [H1 _]. rewrite len_ER in H1. auto. }
    cbn [bind]. destruct (IH (p + 1) exp1) as (expected' & HE & HL & HV); [lia|intros k Hk'; rewrite HL1; auto|].
    exists expected'. split; [exact HE|]. split; [congruence|]. intros t Ht. rewrite HV, HV1 by lia. cbn [seq flat_map]. rewrite filter_app, map_app, fold_left_app. replace (p + 1) with (Datatypes.S p) by lia. reflexivity.
  Qed.
  End Expected.

  (** The probability that a path uses the span [k]. *)
  Definition chance (k : nat) : R := (F ER (pos ER k) * exp (scr ER k) * B len ER (end_ ER k) / F ER len)%R.
  Hypothesis HR : starts_reachable ER len.
  Hypothesis HC : ends_continued ER len.
  Lemma chance_bounds k : k < length E -> (0 < chance k <= 1)%R.
  Proof.
    intros Hk. rewrite <- len_ER in Hk.
    assert (HEn : enumerates (rpaths ER (Datatypes.S len) len) (Path ER 0 len)).
    { destruct (F_enum HneR HinR len) as [H1 H2]. split; [exact H1|]. intros ks. rewrite H2. now apply (from_root_complete HneR). }
    destruct (C43_marginals HneR HinR HR HC HEn) as [Hm _]. specialize (Hm k Hk). cbv zeta in Hm. fold (F ER len) in Hm.
    set (P := rpaths ER (Datatypes.S len) len) in *. set (ne := fun ks : list nat => match ks with [] => false | _ => true end).
    assert (HW : enumerates (filter ne P) (whole ER)).
    { destruct HEn as [HN HE]. split; [now apply NoDup_filter|]. intros ks. rewrite filter_In, HE. rewrite (whole_complete HneR HinR ks HR HC). destruct ks; simpl; intuition congruence. }
    assert (HT := sum_through HneR HinR HW Hk). unfold chance. rewrite <- HT. rewrite sum_filter.
    rewrite (sum_ext _ (fun ks => if in_dec Nat.eq_dec k ks then weight ER ks else 0%R)); [exact Hm|]. intros [|x ks] _; simpl; [|reflexivity]. destruct (in_dec Nat.eq_dec k []) as [[]|]; reflexivity.
  Qed.

  Definition update_error : R := ((2 * INR (length E) + 8) * d)%R.
  Hypothesis Herr : (update_error <= 1)%R.
  Definition denormal : R := bpow radix2 (-1074).
  Lemma fupd_spec alpha beta z k : ff_inv (len + 1) alpha -> fb_inv 0 beta -> near len (length E + 1) z (F ER len) -> k < length E ->
    is_finite (fupd alpha beta z k) = true /\ (0 <= B2R (fupd alpha beta z k))%R /\
    (exp (- update_error) * chance k - denormal <= B2R (fupd alpha beta z k) <= exp update_error * chance k + denormal)%R.
  Proof.
    intros (_ & HA & _) (_ & HB & _) (Fz & Pz & Z1 & Z2) Hk. destruct (chance_bounds Hk) as [M0 M1]. unfold fupd. set (T := ftotal alpha beta z k).
    assert (Hkb := k_bounds HneR HinR (k := k)). rewrite len_ER in Hkb. specialize (Hkb Hk).
    assert (Ea := HA (2 + k) ltac:(change (length G) with (2 + length E); lia) ltac:(lia)). change (pos_of GR (2 + k)) with (pos ER k) in Ea. specialize (Ea ltac:(lia)).
    assert (Eb := HB (2 + k) ltac:(change (length G) with (2 + length E); lia) ltac:(lia)). change (end_of s ER (2 + k)) with (end_ ER k) in Eb. specialize (Eb ltac:(lia)).
    destruct Ea as (Fa & Pa & A1 & A2), Eb as (Fb & Pb & B1 & B2).
    assert (Hs : is_finite (fscr k) = true /\ (Rabs (B2R (fscr k)) <= INR (end_ ER k - pos ER k) * S)%R /\ B2R (fscr k) = scr ER k).
    { destruct (@score_ok (2 + k)) as [H1 H2]; [change (length G) with (2 + length E); lia|]. split; [exact H1|]. split; [exact H2|]. unfold fscr, scr. rewrite nth_error_map. destruct (nth_error E k); reflexivity. }
    destruct Hs as (Fs & Bs & Es). set (a := fat alpha (2 + k)) in *. set (b := fat beta (2 + k)) in *. set (sk := fscr k) in *.
    assert (Hd := d_bounds HS Hcap). set (C := cap len K S) in *. set (dl := unit_error C) in *. assert (HC0 := cap_pos len K HS). fold C in HC0.
    assert (Hkk : (INR (KF ER (pos ER k)) + INR (KB ER (end_ ER k)) <= INR (length E))%R).
    { rewrite <- plus_INR. apply le_INR. apply Nat.le_trans with (length ER); [apply (KF_KB HneR HinR); lia|rewrite len_ER; lia]. }
    rewrite plus_INR in A1, A2, B1, B2, Z1, Z2. simpl (INR 1) in *. set (kF := INR (KF ER (pos ER k))) in *. set (kB := INR (KB ER (end_ ER k))) in *. set (n := INR (length E)) in *.
    assert (HkF0 : (0 <= kF)%R) by apply pos_INR. assert (HkB0 : (0 <= kB)%R) by apply pos_INR. assert (Hn0 : (0 <= n)%R) by apply pos_INR.
    assert (HCd : C = (INR len * S + 2 * n + 6)%R) by (unfold C, cap; rewrite plus_INR; fold n; simpl (INR 3); ring).
    rewrite minus_INR in Bs, B2 by lia. set (pk := INR (pos ER k)) in *. set (ek := INR (end_ ER k)) in *. set (L := INR len) in *.
    assert (Hpe : (0 <= pk <= ek)%R) by (split; [apply pos_INR|apply le_INR; lia]). assert (HeL : (ek <= L)%R) by (apply le_INR; lia).
    set (u := ulp_half) in *. assert (Hu : (0 < u)%R) by (unfold u, ulp_half; lra). assert (Ht : (0 < tiny <= u / 1000)%R) by (unfold tiny, u, ulp_half; lra).
    assert (Hdd : dl = ((C + 64) * u)%R) by reflexivity. 
    assert (X1 : (pk * S <= ek * S)%R) by (apply Rmult_le_compat_r; lra). assert (X2 : (ek * S <= L * S)%R) by (apply Rmult_le_compat_r; lra). assert (X0 : (0 <= pk * S)%R) by (apply Rmult_le_pos; lra).
    assert (X3 : ((kF + 1) * dl <= kF + 1)%R) by (rewrite <- (Rmult_1_r (kF + 1)) at 2; apply Rmult_le_compat_l; lra).
    assert (X4 : ((kB + 1) * dl <= kB + 1)%R) by (rewrite <- (Rmult_1_r (kB + 1)) at 2; apply Rmult_le_compat_l; lra).
    assert (X5 : ((n + 1) * dl <= n + 1)%R) by (rewrite <- (Rmult_1_r (n + 1)) at 2; apply Rmult_le_compat_l; lra).
    assert (Y1 := A1). assert (Y2 := B1). assert (Y3 := Z1). apply Rabs_le_inv in Y1. apply Rabs_le_inv in Y2. apply Rabs_le_inv in Y3. assert (Y4 := A2). assert (Y5 := B2). assert (Y6 := Z2). apply Rabs_le_inv in Y4. apply Rabs_le_inv in Y5. apply Rabs_le_inv in Y6. assert (Y7 := Bs). apply Rabs_le_inv in Y7.
    destruct (@fadd_err a sk C Fa Fs) as [F1 E1]; [apply Rabs_le; lra|apply le_huge; lra|]. apply Rabs_le_inv in E1. fold u in E1.
    assert (T1 : (C * u + tiny <= dl)%R) by (rewrite Hdd; lra).
    destruct (@fadd_err (fadd a sk) b C F1 Fb) as [F2 E2]; [apply Rabs_le; lra|apply le_huge; lra|]. apply Rabs_le_inv in E2. fold u in E2.
    destruct (@fsub_err (fadd (fadd a sk) b) z (2 * C + 8) F2 Fz) as [F3 E3]; [apply Rabs_le; lra|apply le_huge; lra|]. apply Rabs_le_inv in E3. fold u in E3.
    assert (T3 : ((2 * C + 8) * u + tiny <= 2 * dl)%R) by (rewrite Hdd; lra).
    fold T in F3, E3. change (fsub (fadd (fadd a sk) b) z) with T in F3, E3.
    assert (Eln : ln (chance k) = (ln (F ER (pos ER k)) + B2R sk + ln (B len ER (end_ ER k)) - ln (F ER len))%R).
    { unfold chance, Rdiv. rewrite ln_mult, ln_Rinv, !ln_mult, ln_exp, Es; auto; try apply exp_pos; try apply Rmult_lt_0_compat; auto; try apply exp_pos; try apply Rmult_lt_0_compat; auto; try apply exp_pos; try now apply Rinv_0_lt_compat. }
    assert (ET : (Rabs (B2R T - ln (chance k)) <= (2 * n + 7) * dl)%R).
    { rewrite Eln. assert ((kF + kB) * dl <= n * dl)%R by (apply Rmult_le_compat_r; lra). apply Rabs_le. lra. }
    assert (Hue : update_error = ((2 * n + 7) * dl + dl)%R) by (unfold update_error; fold n; fold C; fold dl; ring).
    assert (Hlm : (ln (chance k) <= 0)%R) by (rewrite <- ln_1; now apply ln_le').
    apply Rabs_le_inv in ET. destruct (Hexp T F3 ltac:(lra)) as (F4 & P4 & E4). split; [exact F4|]. split; [exact P4|].
    replace (bpow radix2 (-52)) with (2 * u)%R in E4 by (unfold u, ulp_half; simpl; lra). fold denormal in E4. apply Rabs_le_inv in E4.
    assert (Hm : chance k = exp (ln (chance k))) by (symmetry; now apply exp_ln). assert (PT := exp_pos (B2R T)).
    assert (T4 : (64 * u <= dl)%R) by (rewrite Hdd; apply Rmult_le_compat_r; lra).
    assert (Up : (exp (B2R T) * (1 + 2 * u) <= exp update_error * chance k)%R).
    { rewrite Hm at 1. rewrite <- exp_plus. apply Rle_trans with (exp (B2R T) * exp (2 * u))%R.
      - apply Rmult_le_compat_l; [lra|]. apply exp_ge_1.
      - rewrite <- exp_plus. apply exp_le. rewrite Hue. lra. }
    assert (Dn : (exp (- update_error) * chance k <= exp (B2R T) * (1 - 2 * u))%R).
    { rewrite Hm at 1. rewrite <- exp_plus. apply Rle_trans with (exp (B2R T) * exp (- (4 * u)))%R.
      - rewrite <- exp_plus. apply exp_le. rewrite Hue. lra.
      - apply Rmult_le_compat_l; [lra|]. apply exp_lower. }
    lra.
  Qed.

  Theorem fmarginal_spec expected : (forall k, k < length E -> N.to_nat (id ER k) < length expected) ->
    exists expected' z u, populate_marginal A l expected = Ok (expected', z) /\ length expected' = length expected /\
      is_finite z = true /\ (Rabs (B2R z - ln (F ER len)) <= (INR (length E) + 1) * d)%R /\
      (forall k, k < length E -> is_finite (u k) = true /\ (0 <= B2R (u k))%R /\ (exp (- update_error) * chance k - denormal <= B2R (u k) <= exp update_error * chance k + denormal)%R) /\
      forall t, t < length expected -> fat expected' t = fold_left fadd (map u (filter (for_token t) (flat_map (starting ER) (seq 0 len)))) (fat expected t).
  Proof.
    intros Hids. unfold populate_marginal. rewrite (i_sentence I). rewrite (nodes_length (i_nodes I)). set (zeros := repeat (a_zero A) (length G)).
    assert (Hz : forall i, fat zeros i = f0).
    { intros i. unfold fat, zeros. destruct (Nat.lt_ge_cases i (length G)) as [H|H]; [|apply nth_overflow; now rewrite repeat_length]. apply nth_error_nth. now apply nth_error_repeat. }
    assert (Hzl : length zeros = length G) by apply repeat_length.
    destruct (@ff_spec (len + 1) 0 zeros) as (alpha & -> & HA); [reflexivity|split; [exact Hzl|split; [intros; lia|intros; apply Hz]]|]. cbn [bind].
    destruct (@fb_spec (len + 1) zeros) as (beta & -> & HB); [lia| |].
    { split; [exact Hzl|split; [|intros; apply Hz]]. intros i Hi Hi1 Hge. exfalso. destruct i as [|[|k]]; [change (end_of s ER 0) with 0 in Hge; lia|lia|]. change (end_of s ER (Datatypes.S (Datatypes.S k))) with (end_ ER k) in Hge.
      assert (Hb := k_bounds HneR HinR (k := k)). rewrite len_ER in Hb. change (length G) with (2 + length E) in Hi. lia. }
    cbn [bind]. rewrite (i_eos I). assert (HA1 := proj1 HA). assert (HB1 := proj1 HB).
    rewrite (index_Some _ _ (@fat_error alpha 1 ltac:(rewrite HA1; change (length G) with (2 + length E); lia))). cbn [bind]. set (z := fat alpha 1).
    destruct (@fadd_positions alpha beta z HA1 HB1 len 0 expected (eq_refl)) as (expected' & -> & HL & HV); [exact Hids|]. cbn [bind].
    assert (Hzn : near len (length E + 1) z (F ER len)).
    { assert (H := proj1 (proj2 HA) 1 ltac:(change (length G) with (2 + length E); lia) ltac:(lia)). change (pos_of GR 1) with len in H. specialize (H ltac:(lia)). revert H. apply near_weaken; auto. assert (Hk := KF_le len). lia. }
    exists expected', z, (fupd alpha beta z). split; [reflexivity|]. split; [exact HL|]. split; [apply Hzn|]. split; [|split].
    - replace (INR (length E) + 1)%R with (INR (length E + 1)) by (rewrite plus_INR; reflexivity). apply Hzn.
    - intros k Hk. now apply fupd_spec.
    - exact HV.
  Qed.
End FPasses.
