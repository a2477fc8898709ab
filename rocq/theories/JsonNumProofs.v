(** The texts of numbers: what is read from them and what is printed. *)
From Coq Require Import ZArith Reals Bool Lia Lra.
From Flocq Require Import Core BinarySingleNaN.
From Verif Require Import Base F64 F64Proofs Utf8 SpecUtf8 SpecJson Json SpecNum JsonNum RoundProofs ShortestProofs PartsProofs.
Set Implicit Arguments.
Local Open Scope Z_scope.

(** ** Digits *)
Lemma digit_val_of d x : Z.of_N (Byte.to_N d) = 0x30 + x -> digit_val d = x.
Proof. unfold digit_val, bN. intros ->. lia. Qed.
Lemma is_digit_iff b : is_digit b = true <-> digit b.
Proof.
  unfold is_digit, in_range, digit, bN. rewrite andb_true_iff. rewrite !N.leb_le. tauto.
Qed.
Lemma digit_val_range b : digit b -> 0 <= digit_val b < 10.
Proof. unfold digit, digit_val, bN. lia. Qed.
(** The number that digits stand for, after [a]. *)
Definition dfold (ds : bytes) (a : Z) : Z := fold_left (fun a d => a * 10 + digit_val d) ds a.
Definition len (s : bytes) : Z := Z.of_nat (List.length s).
Lemma len_app a b : len (a ++ b) = len a + len b.
Proof. unfold len. rewrite app_length. lia. Qed.
Lemma len_cons x b : len (x :: b) = 1 + len b.
Proof. unfold len. cbn [List.length]. lia. Qed.
Lemma len_pos s : 0 <= len s.
Proof. unfold len. lia. Qed.
Lemma dfold_nil z : dfold [] z = z.
Proof. reflexivity. Qed.
Lemma dfold_app a b z : dfold (a ++ b) z = dfold b (dfold a z).
Proof. apply fold_left_app. Qed.
Lemma dfold_split ds z : dfold ds z = z * 10 ^ len ds + dfold ds 0.
Proof.
  revert z. induction ds as [|d ds IH]; intros z; [unfold len; simpl; lia|].
  cbn [dfold fold_left]. change (fold_left _ ds ?a) with (dfold ds a). rewrite IH, (IH (0 * 10 + digit_val d)), len_cons, Z.pow_add_r by (try apply len_pos; lia). ring.
Qed.
Lemma dfold_range ds : Forall digit ds -> 0 <= dfold ds 0 < 10 ^ len ds.
Proof.
  induction 1 as [|d ds Hd H IH]; [unfold len; simpl; lia|]. cbn [dfold fold_left]. change (fold_left _ ds ?a) with (dfold ds a).
  rewrite dfold_split, len_cons, Z.pow_add_r by (try apply len_pos; lia). apply digit_val_range in Hd. nia.
Qed.
Lemma numeral_iff ds n : Numeral ds n <-> Forall digit ds /\ n = dfold ds 0.
Proof.
  split.
  - induction 1 as [|ds n d x H [IH1 IH2] Hd Hx]; [auto|]. split.
    + apply Forall_app. split; [exact IH1|]. repeat constructor; lia.
    + rewrite dfold_app, <- IH2. unfold dfold. cbn [fold_left]. rewrite (@digit_val_of d x Hd). ring.
  - revert n. induction ds as [|d ds IH] using rev_ind; intros n [H ->]; [constructor|].
    apply Forall_app in H as [H Hd]. inversion Hd; subst. rewrite dfold_app. unfold dfold at 1. cbn [fold_left]. rewrite Z.mul_comm. constructor; [now apply IH| |now apply digit_val_range].
    unfold digit_val, digit in *. unfold bN. lia.
Qed.

Definition no_digit (s : bytes) : Prop := match s with b :: _ => is_digit b = false | [] => True end.
Lemma skip_digits_of ds rest : Forall digit ds -> no_digit rest -> skip_digits (ds ++ rest) = (len ds, rest).
Proof.
  intros H Hr. induction H as [|d ds Hd H IH]; cbn [app skip_digits].
  - destruct rest as [|b rest]; [reflexivity|]. cbn in Hr |- *. now rewrite Hr.
  - rewrite (proj2 (is_digit_iff d) Hd), IH, len_cons. f_equal. lia.
Qed.
(** What is taken of the digits: [ds1]; the rest would make the number too large. *)
Definition taken (ds1 ds2 : bytes) (sig : Z) : Prop := dfold ds1 sig <= u64_max /\ (ds2 = [] \/ exists d ds, ds2 = d :: ds /\ u64_max < dfold ds1 sig * 10 + digit_val d).
Lemma int_digits_of ds rest : Forall digit ds -> no_digit rest -> forall sig, 0 <= sig <= u64_max ->
  exists ds1 ds2, ds = ds1 ++ ds2 /\ taken ds1 ds2 sig /\ int_digits (ds ++ rest) sig = (dfold ds1 sig, len ds2, rest).
Proof.
  intros H Hr. induction H as [|d ds Hd H IH]; intros sig Hs.
  - exists [], []. split; [reflexivity|]. split; [split; rewrite ?dfold_nil; [lia|now left]|]. cbn [app int_digits]. destruct rest as [|b rest]; [reflexivity|]. cbn in Hr |- *. now rewrite Hr.
  - cbn [app int_digits]. rewrite (proj2 (is_digit_iff d) Hd). assert (D := digit_val_range Hd). destruct (Z.ltb_spec u64_max (sig * 10 + digit_val d)) as [Ho|Ho].
    + exists [], (d :: ds). split; [reflexivity|]. split; [split; rewrite ?dfold_nil; [lia|right; eauto]|]. change (d :: ds ++ rest) with ((d :: ds) ++ rest). rewrite skip_digits_of; auto.
    + destruct (IH (sig * 10 + digit_val d)) as (ds1 & ds2 & -> & Ht & E); [lia|]. exists (d :: ds1), ds2. split; [reflexivity|]. split; [exact Ht|exact E].
Qed.
Lemma frac_digits_of ds rest : Forall digit ds -> no_digit rest -> forall sig e, 0 <= sig <= u64_max ->
  exists ds1 ds2, ds = ds1 ++ ds2 /\ taken ds1 ds2 sig /\ frac_digits (ds ++ rest) sig e = (dfold ds1 sig, e - len ds1, rest).
Proof.
  intros H Hr. induction H as [|d ds Hd H IH]; intros sig e Hs.
  - exists [], []. split; [reflexivity|]. split; [split; rewrite ?dfold_nil; [lia|now left]|]. cbn [app frac_digits]. change (len []) with 0. rewrite Z.sub_0_r.
    destruct rest as [|b rest]; [reflexivity|]. cbn in Hr |- *. now rewrite Hr.
  - cbn [app frac_digits]. rewrite (proj2 (is_digit_iff d) Hd). assert (D := digit_val_range Hd). destruct (Z.ltb_spec u64_max (sig * 10 + digit_val d)) as [Ho|Ho].
    + exists [], (d :: ds). split; [reflexivity|]. split; [split; rewrite ?dfold_nil; [lia|right; eauto]|]. change (d :: ds ++ rest) with ((d :: ds) ++ rest). rewrite skip_digits_of by auto. change (len []) with 0. cbn [snd]. rewrite dfold_nil, Z.sub_0_r. reflexivity.
    + destruct (IH (sig * 10 + digit_val d) (e - 1)) as (ds1 & ds2 & -> & Ht & E); [lia|]. exists (d :: ds1), ds2. split; [reflexivity|]. split; [exact Ht|]. rewrite E, len_cons. f_equal. f_equal. lia.
Qed.
Lemma exp_digits_of ds : Forall digit ds -> forall e, 0 <= e <= i32_max -> exp_digits ds e = (if i32_max <? dfold ds e then None else Some (dfold ds e)).
Proof.
  induction 1 as [|d ds Hd H IH]; intros e He; cbn [exp_digits].
  - rewrite dfold_nil. destruct (Z.ltb_spec i32_max e); [lia|reflexivity].
  - rewrite (proj2 (is_digit_iff d) Hd). assert (D := digit_val_range Hd). cbn [dfold fold_left]. change (fold_left _ ds ?a) with (dfold ds a).
    destruct (Z.ltb_spec i32_max (e * 10 + digit_val d)) as [Ho|Ho]; [|apply IH; lia].
    destruct (Z.ltb_spec i32_max (dfold ds (e * 10 + digit_val d))) as [Hx|Hx]; [reflexivity|exfalso].
    rewrite dfold_split in Hx. assert (R := dfold_range H). assert (P := @pow10_pos (len ds) (len_pos ds)). nia.
Qed.

Lemma taken_over ds1 ds2 sig : Forall digit ds2 -> taken ds1 ds2 sig -> ds2 <> [] -> 2 ^ 60 <= dfold ds1 sig /\ u64_max < dfold ds2 (dfold ds1 sig).
Proof.
  intros H [_ [->|(d & ds & -> & Ho)]] Hn; [contradiction|]. inversion H; subst. assert (D := digit_val_range H2). split; [unfold u64_max in Ho; lia|].
  change (dfold (d :: ds) ?a) with (dfold ds (a * 10 + digit_val d)). rewrite dfold_split. assert (R := dfold_range H3). assert (P := @pow10_pos (len ds) (len_pos ds)).
  set (y := dfold ds1 sig * 10 + digit_val d) in *. assert (0 < y) by (unfold u64_max in Ho; lia). assert (y * 1 <= y * 10 ^ len ds) by (apply Z.mul_le_mono_nonneg_l; lia). lia.
Qed.
Lemma dfold_ge ds sig : Forall digit ds -> 0 <= sig -> sig <= dfold ds sig.
Proof. intros H Hs. rewrite dfold_split. assert (R := dfold_range H). assert (P := @pow10_pos (len ds) (len_pos ds)). nia. Qed.

(** The significand and exponent that digits before and after the point are read as. *)
Definition parts_of (ip fs : bytes) (sig e : Z) : Prop :=
  0 <= sig <= u64_max /\ - len fs <= e <= len ip /\ (sig = 0 -> dfold (ip ++ fs) 0 = 0) /\
  (dfold (ip ++ fs) 0 <= u64_max -> sig = dfold (ip ++ fs) 0 /\ e = - len fs) /\
  (Rabs (decimal sig e - decimal (dfold (ip ++ fs) 0) (- len fs)) <= decimal (dfold (ip ++ fs) 0) (- len fs) / 1152921504606846976)%R.
Lemma dfold_0_pos ds sig : Forall digit ds -> 0 <= sig -> 0 <= dfold ds sig.
Proof. intros H Hs. assert (R := dfold_ge H Hs). lia. Qed.
Lemma trunc a1 a2 b1 b2 : Forall digit (a1 ++ a2) -> Forall digit (b1 ++ b2) -> taken a1 a2 0 -> taken b1 b2 (dfold a1 0) ->
  parts_of (a1 ++ a2) (b1 ++ b2) (dfold b1 (dfold a1 0)) (len a2 - len b1).
Proof.
  intros Ha Hb Ta Tb. apply Forall_app in Ha as [Ha1 Ha2]. apply Forall_app in Hb as [Hb1 Hb2].
  set (sig0 := dfold a1 0) in *. set (sig := dfold b1 sig0) in *. assert (S0 : 0 <= sig0) by (apply dfold_0_pos; [exact Ha1|lia]).
  assert (S1 : sig0 <= sig) by (now apply dfold_ge). destruct Tb as [Tb1 Tb2]. fold sig in Tb1.
  assert (EC : dfold ((a1 ++ a2) ++ b1 ++ b2) 0 = dfold b2 (dfold b1 (dfold a2 sig0))) by (rewrite !dfold_app; reflexivity).
  set (C := dfold ((a1 ++ a2) ++ b1 ++ b2) 0) in *.
  assert (Over2 : a2 <> [] -> 2 ^ 60 <= sig0 /\ u64_max < C).
  { intros Hn. destruct (taken_over Ha2 Ta Hn) as [O1 O2]. split; [exact O1|]. rewrite EC. fold sig0 in O2. assert (G1 := @dfold_ge b1 (dfold a2 sig0) Hb1 ltac:(unfold u64_max in O2; lia)).
    assert (G2 := @dfold_ge b2 (dfold b1 (dfold a2 sig0)) Hb2 ltac:(unfold u64_max in O2; lia)). lia. }
  assert (Over3 : b2 <> [] -> 2 ^ 60 <= sig /\ (a2 = [] -> u64_max < C)).
  { intros Hn. destruct (@taken_over b1 b2 sig0 Hb2 (conj Tb1 Tb2) Hn) as [O1 O2]. split; [exact O1|]. intros ->. rewrite EC. exact O2. }
  assert (L1 := len_pos a1). assert (L2 := len_pos a2). assert (L3 := len_pos b1). assert (L4 := len_pos b2).
  assert (RA := dfold_range Ha2). assert (RB1 := dfold_range Hb1). assert (RB2 := dfold_range Hb2).
  assert (ES : sig = sig0 * 10 ^ len b1 + dfold b1 0) by (apply dfold_split).
  assert (EC2 : C = ((sig0 * 10 ^ len a2 + dfold a2 0) * 10 ^ len b1 + dfold b1 0) * 10 ^ len b2 + dfold b2 0) by (rewrite EC, (dfold_split b2), (dfold_split b1), (dfold_split a2); ring).
  split; [lia|]. split; [rewrite !len_app; lia|]. split; [|split].
  - fold C. intros Hz. destruct a2 as [|x a2]; [|destruct Over2 as [O _]; [discriminate|lia]]. destruct b2 as [|y b2]; [|destruct Over3 as [O _]; [discriminate|lia]]. rewrite EC. cbn. exact Hz.
  - fold C. intros Hc. destruct a2 as [|x a2]; [|destruct Over2 as [_ O]; [discriminate|lia]]. destruct b2 as [|y b2]; [|destruct Over3 as [_ O]; [discriminate|specialize (O eq_refl); lia]].
    rewrite !app_nil_r, EC. change (len []) with 0. split; [reflexivity|lia].
  - fold C. rewrite len_app. set (n := len a2) in *. set (l1 := len b1) in *. set (l2 := len b2) in *.
    set (A := dfold a2 0) in *. set (F1 := dfold b1 0) in *. set (F2 := dfold b2 0) in *.
    assert (P1 := p10_pos (- l1)). assert (P12 := p10_pos (- (l1 + l2))). assert (Pn := p10_pos n).
    (* over the reals *)
    assert (EX : (decimal C (- (l1 + l2)) = IZR sig0 * powerRZ 10 n + IZR A + IZR F1 * powerRZ 10 (- l1) + IZR F2 * powerRZ 10 (- (l1 + l2)))%R).
    { unfold decimal. rewrite EC2, !plus_IZR, !mult_IZR, !plus_IZR, !mult_IZR, plus_IZR, mult_IZR, <- !p10_Z by lia.
      rewrite Z.opp_add_distr, p10_plus, !p10_opp. assert (Q1 := p10_pos l1). assert (Q2 := p10_pos l2). field. lra. }
    assert (EDS : (decimal sig (n - l1) = IZR sig0 * powerRZ 10 n + IZR F1 * powerRZ 10 (- l1) * powerRZ 10 n)%R).
    { unfold decimal. rewrite ES, plus_IZR, mult_IZR, <- p10_Z by lia. unfold Z.sub. rewrite p10_plus, p10_opp. assert (Q1 := p10_pos l1). field. lra. }
    assert (NF1 : (0 <= IZR F1 * powerRZ 10 (- l1) <= 1 - powerRZ 10 (- l1))%R).
    { assert (Q1 := p10_pos l1). assert (Hf : (0 <= IZR F1 <= IZR (10 ^ l1) - 1)%R) by (rewrite <- minus_IZR; split; apply IZR_le; lia). rewrite <- p10_Z in Hf by lia. rewrite p10_opp in *.
      assert (E1 : (powerRZ 10 l1 * / powerRZ 10 l1 = 1)%R) by (field; lra). split; nra. }
    assert (NF2 : (0 <= IZR F2 * powerRZ 10 (- (l1 + l2)) <= powerRZ 10 (- l1))%R).
    { assert (Q1 := p10_pos l2). assert (Hf : (0 <= IZR F2 <= IZR (10 ^ l2))%R) by (split; apply IZR_le; lia). rewrite <- p10_Z in Hf by lia.
      rewrite Z.opp_add_distr, p10_plus. rewrite (p10_opp l2). assert (E1 : (powerRZ 10 l2 * / powerRZ 10 l2 = 1)%R) by (field; lra). assert (0 < / powerRZ 10 l2)%R by (apply Rinv_0_lt_compat; lra).
      assert (0 <= IZR F2 * / powerRZ 10 l2 <= 1)%R by (split; nra). split; nra. }
    assert (NA : (0 <= IZR A <= powerRZ 10 n - 1)%R) by (rewrite p10_Z, <- minus_IZR by lia; split; apply IZR_le; lia).
    assert (RS0 : (0 <= IZR sig0)%R) by (apply IZR_le; exact S0).
    destruct a2 as [|x a2].
    + change n with 0 in *. assert (EA : A = 0) by reflexivity. rewrite EA in EX. simpl (powerRZ 10 0) in *.
      destruct b2 as [|y b2].
      * assert (EF : F2 = 0) by reflexivity. rewrite EF in EX. replace (decimal sig (0 - l1)) with (decimal C (- (l1 + l2))) by lra. rewrite Rminus_diag_eq, Rabs_R0 by reflexivity.
        assert (0 <= decimal C (- (l1 + l2)))%R; [|lra]. rewrite EX. assert (0 <= IZR sig0 * 1)%R by lra. lra.
      * destruct Over3 as [O _]; [discriminate|]. assert (O' : (1152921504606846976 <= IZR sig)%R) by (apply (IZR_le (2 ^ 60)); exact O).
        assert (ES' : (decimal sig (0 - l1) = IZR sig * powerRZ 10 (- l1))%R) by reflexivity.
        assert (1152921504606846976 * powerRZ 10 (- l1) <= decimal sig (0 - l1))%R by (rewrite ES'; apply Rmult_le_compat_r; lra).
        replace (decimal sig (0 - l1) - decimal C (- (l1 + l2)))%R with (- (IZR F2 * powerRZ 10 (- (l1 + l2))))%R by lra. rewrite Rabs_Ropp, Rabs_pos_eq by lra. lra.
    + destruct Over2 as [O _]; [discriminate|]. assert (O' : (1152921504606846976 <= IZR sig0)%R) by (apply (IZR_le (2 ^ 60)); exact O).
      assert (1152921504606846976 * powerRZ 10 n <= IZR sig0 * powerRZ 10 n)%R by (apply Rmult_le_compat_r; lra).
      assert (0 <= IZR F1 * powerRZ 10 (- l1) * powerRZ 10 n <= powerRZ 10 n)%R by (split; nra).
      assert (Rabs (decimal sig (n - l1) - decimal C (- (l1 + l2))) <= powerRZ 10 n)%R by (apply Rabs_le; lra). lra.
Qed.

Definition Point (ds fs : bytes) : Prop := ds = [] /\ fs = [] \/ ds = x2e :: fs /\ fs <> [].
Lemma read_abs_of ip ds fs ep : Digits ip -> Point ds fs -> Forall digit fs -> (ep = [] \/ exists c s, ep = c :: s /\ is_e c = true) ->
  exists sig e, parts_of ip fs sig e /\
    match ep with
    | [] => read_abs (ip ++ ds ++ ep) = from_parts sig e \/ e = 0 /\ read_abs (ip ++ ds ++ ep) = Some (f64_of_Z sig)
    | _ :: s => read_abs (ip ++ ds ++ ep) = read_exp sig e s
    end.
Proof.
  intros [_ Hi] Hp Hf He. unfold read_abs.
  assert (Hee : forall c, is_e c = true -> is_digit c = false /\ Byte.eqb c x2e = false).
  { intros c Hc. unfold is_e in Hc. apply orb_true_iff in Hc as [Hc|Hc]; apply Byte.byte_dec_bl in Hc as ->; split; reflexivity. }
  assert (Hnd : no_digit ep) by (destruct He as [->|(c & s & -> & Hc)]; [exact I|apply Hee in Hc as [Hc _]; exact Hc]).
  assert (Hnd2 : no_digit (ds ++ ep)) by (destruct Hp as [[-> ->]|[-> _]]; [exact Hnd|reflexivity]).
  destruct (@int_digits_of ip (ds ++ ep) Hi Hnd2 0 ltac:(unfold u64_max; lia)) as (a1 & a2 & -> & Ta & Ei). rewrite Ei.
  apply Forall_app in Hi as Hi2. assert (S0 : 0 <= dfold a1 0) by (apply dfold_0_pos; [apply Hi2|lia]). assert (S1 : dfold a1 0 <= u64_max) by apply Ta.
  destruct Hp as [[-> ->]|[-> Hne]].
  - exists (dfold a1 0), (len a2). split.
    + assert (T := @trunc a1 a2 [] [] Hi (Forall_nil _) Ta). rewrite Z.sub_0_r in T. apply T. split; [rewrite dfold_nil; exact S1|now left].
    + cbn [app]. destruct He as [->|(c & s & -> & Hc)].
      * destruct (Z.eqb_spec (len a2) 0); auto.
      * destruct (Hee _ Hc) as [_ ->]. now rewrite Hc.
  - cbn [app]. change (Byte.eqb x2e ".") with true. cbv iota.
    destruct (@frac_digits_of fs ep Hf Hnd (dfold a1 0) (len a2) ltac:(lia)) as (b1 & b2 & -> & Tb & Ef). rewrite Ef.
    exists (dfold b1 (dfold a1 0)), (len a2 - len b1). split; [now apply trunc|].
    destruct He as [->|(c & s & -> & Hc)]; [now left|now rewrite Hc].
Qed.

(** ** The numbers that are read *)
Local Open Scope R_scope.
Definition nonneg_near (V : R) (o : option f64) : Prop :=
  match o with
  | Some f => exists r, pos_num f r /\ 0 <= r /\ Rabs (r - V) <= 8 * u * V + bpow radix2 (-1074)
  | None => bpow radix2 1024 <= (1 + 5 * u) * V
  end.
Lemma near_trunc D V o : 0 <= D -> 0 <= V -> Rabs (D - V) <= V / 1152921504606846976 ->
  match o with
  | Some f => exists r, pos_num f r /\ 0 <= r /\ Rabs (r - D) <= 7 * u * D + bpow radix2 (-1074)
  | None => bpow radix2 1024 <= (1 + 4 * u) * D
  end -> nonneg_near V o.
Proof.
  intros HD HV HC Ho. assert (U : u = / 9007199254740992) by reflexivity. assert (L := Rabs_le_inv _ _ HC). destruct o as [f|]; unfold nonneg_near.
  - destruct Ho as (r & H1 & H2 & H3). exists r. split; [exact H1|]. split; [exact H2|]. replace (r - V) with ((r - D) + (D - V)) by ring. eapply Rle_trans; [apply Rabs_triang|]. rewrite U in *. lra.
  - rewrite U in *. lra.
Qed.
Lemma decimal_nonneg c k : (0 <= c)%Z -> 0 <= decimal c k.
Proof. intros H. apply IZR_le in H. assert (P := p10_pos k). unfold decimal. nra. Qed.
Lemma decimal_scale c k x : decimal c (k + x) = decimal c k * powerRZ 10 x.
Proof. unfold decimal. rewrite p10_plus. ring. Qed.

Lemma low_below sig e : (0 <= sig <= u64_max)%Z -> (e < -616)%Z -> decimal sig e < eta.
Proof.
  intros Hs He. unfold decimal. apply Rle_lt_trans with (bpow radix2 64 * powerRZ 10 (-617)).
  - assert (IZR sig <= bpow radix2 64) by (change (bpow radix2 64) with (IZR (2 ^ 64)); apply IZR_le; unfold u64_max in Hs; lia).
    assert (powerRZ 10 e <= powerRZ 10 (-617)) by (apply p10_le; lia). assert (0 <= IZR sig) by (apply IZR_le; lia). assert (P := p10_pos e). apply Rmult_le_compat; lra.
  - change (-617)%Z with (- (617))%Z. rewrite p10_opp, p10_Z by lia. unfold eta. change (-1075)%Z with (- (1075))%Z. rewrite bpow_opp, !b2_Z by lia.
    assert (0 < IZR (10 ^ 617)) by (apply IZR_lt, pow10_pos; lia). assert (0 < IZR (2 ^ 1075)) by (apply IZR_lt, pow2_pos; lia).
    apply Rmult_lt_reg_r with (IZR (10 ^ 617) * IZR (2 ^ 1075)); [nra|]. replace (IZR (2 ^ 64) * / IZR (10 ^ 617) * (IZR (10 ^ 617) * IZR (2 ^ 1075))) with (IZR (2 ^ 64) * IZR (2 ^ 1075)) by (field; lra).
    replace (/ IZR (2 ^ 1075) * (IZR (10 ^ 617) * IZR (2 ^ 1075))) with (IZR (10 ^ 617)) by (field; lra). rewrite <- mult_IZR. apply IZR_lt. vm_compute. reflexivity.
Qed.
Lemma high_above sig e : (0 < sig)%Z -> (308 < e)%Z -> bpow radix2 1024 <= (1 + 4 * u) * decimal sig e.
Proof.
  intros Hs He. apply Rle_trans with (IZR (10 ^ 309)); [rewrite b2_Z by lia; apply IZR_le; vm_compute; discriminate|].
  apply Rle_trans with (decimal 1 e); [unfold decimal; rewrite Rmult_1_l, <- p10_Z by lia; apply p10_le; lia|].
  apply Rle_trans with (decimal sig e); [apply decimal_le; lia|]. assert (0 <= u * decimal sig e); [|lra]. apply Rmult_le_pos; [unfold u; lra|apply decimal_nonneg; lia].
Qed.
Lemma near_low D V f : 0 <= D -> 0 <= V -> Rabs (D - V) <= V / 1152921504606846976 -> D < eta -> pos_num f 0 -> nonneg_near V (Some f).
Proof.
  intros HD HV HC HL Hf. apply Rabs_le_inv in HC. exists 0. split; [exact Hf|]. split; [lra|]. rewrite Rminus_0_l, Rabs_Ropp, Rabs_pos_eq, eta_2 by exact HV. assert (0 <= 8 * u * V) by (unfold u; lra). assert (E := eta_pos). lra.
Qed.
Lemma f0_num : pos_num f0 0.
Proof. repeat split. Qed.

Definition minus_sign (s : bytes) : bool := match s with [b] => Byte.eqb b x2d | _ => false end.
Lemma read_exp_eq sig e s es n x : Digits es -> n = dfold es 0 -> (s = [] /\ x = n \/ s = [x2b] /\ x = n \/ s = [x2d] /\ x = (- n)%Z) ->
  x = (if minus_sign s then - n else n)%Z /\
  read_exp sig e (s ++ es) = if (i32_max <? n)%Z then (if negb (sig =? 0)%Z && negb (minus_sign s) then None else Some f0) else from_parts sig (i32_clamp (e + x)).
Proof.
  intros [Hne Hd] En Hx. unfold read_exp.
  match goal with |- _ /\ match ?m with (_, _) => _ end = _ => replace m with (minus_sign s, es) end.
  2: { destruct Hx as [[-> _]|[[-> _]|[-> _]]]; [|reflexivity|reflexivity]. destruct es as [|d es]; [contradiction|]. cbn [app]. inversion Hd; subst. unfold digit in H1.
    destruct (Byte.eqb d "+") eqn:E1; [apply Byte.byte_dec_bl in E1 as ->; change (Byte.to_N x2b) with 43%N in H1; exfalso; lia|].
    destruct (Byte.eqb d "-") eqn:E2; [apply Byte.byte_dec_bl in E2 as ->; change (Byte.to_N x2d) with 45%N in H1; exfalso; lia|]. reflexivity. }
  assert (Ex : x = if minus_sign s then (- n)%Z else n) by (destruct Hx as [[-> ->]|[[-> ->]|[-> ->]]]; reflexivity).
  split; [exact Ex|]. rewrite exp_digits_of by (exact Hd || (unfold i32_max; lia)). rewrite <- En. destruct (i32_max <? n)%Z; [reflexivity|]. rewrite Ex. destruct (minus_sign s); reflexivity.
Qed.
Lemma read_exp_of sig e s es n x V : (0 <= sig <= u64_max)%Z -> (Z.abs e < 2 ^ 30)%Z -> Digits es -> n = dfold es 0 ->
  (s = [] /\ x = n \/ s = [x2b] /\ x = n \/ s = [x2d] /\ x = (- n)%Z) -> 0 <= V -> (sig = 0%Z -> V = 0) ->
  Rabs (decimal sig (e + x) - V) <= V / 1152921504606846976 -> nonneg_near V (read_exp sig e (s ++ es)).
Proof.
  intros Hs He Hes En Hx HV Hz HC. assert (HD := @decimal_nonneg sig (e + x) ltac:(lia)).
  destruct (read_exp_eq sig e Hes En Hx) as [Ex ->]. destruct Hes as [_ Hd]. assert (R := dfold_range Hd). rewrite <- En in R.
  set (neg := minus_sign s) in *. clearbody neg. clear Hx.
  destruct (Z.ltb_spec i32_max n) as [Ho|Ho].
  - unfold i32_max in Ho. destruct (Z.eqb_spec sig 0) as [Hs0|Hs0]; cbn [negb andb].
    + exists 0. split; [exact f0_num|]. split; [lra|]. rewrite (Hz Hs0), Rminus_0_r, Rabs_R0. assert (E := bpow_ge_0 radix2 (-1074)). lra.
    + destruct neg; cbn [negb].
      * apply near_low with (D := decimal sig (e + x)); auto; [|exact f0_num]. apply low_below; lia.
      * apply near_trunc with (D := decimal sig (e + x)); auto. apply high_above; lia.
  - destruct (Z.le_gt_cases (- 2 ^ 31) (e + x)) as [H1|H1]; [destruct (Z.le_gt_cases (e + x) (2 ^ 31 - 1)) as [H2|H2]|].
    + replace (i32_clamp (e + x)) with (e + x)%Z by (unfold i32_clamp, i32_min, i32_max; lia). apply near_trunc with (D := decimal sig (e + x)); auto. now apply from_parts_spec.
    + replace (i32_clamp (e + x)) with (2 ^ 31 - 1)%Z by (unfold i32_clamp, i32_min, i32_max; lia). assert (H := @parts_high sig (2 ^ 31 - 1) Hs ltac:(lia)).
      destruct (Z.eqb_spec sig 0) as [Hs0|Hs0].
      * destruct H as (f & -> & Hf). exists 0. split; [exact Hf|]. split; [lra|]. rewrite (Hz Hs0), Rminus_0_r, Rabs_R0. assert (E := bpow_ge_0 radix2 (-1074)). lra.
      * rewrite H. apply near_trunc with (D := decimal sig (e + x)); auto. apply high_above; lia.
    + replace (i32_clamp (e + x)) with (- 2 ^ 31)%Z by (unfold i32_clamp, i32_min, i32_max; lia). destruct (@parts_low sig (- 2 ^ 31) Hs ltac:(lia)) as (f & -> & Hf).
      apply near_low with (D := decimal sig (e + x)); auto. apply low_below; lia.
Qed.

Lemma decimal_0 c : decimal c 0 = IZR c.
Proof. unfold decimal. simpl. ring. Qed.
Lemma len_length (s : bytes) : len s = Z.of_nat (length s).
Proof. reflexivity. Qed.
Lemma read_num_of tok minus c k : Means tok minus c k -> (Z.of_nat (length tok) < 2 ^ 30)%Z -> exists o,
  read_num tok = option_map (if minus then fneg else fun f => f) o /\ (0 <= c)%Z /\ nonneg_near (decimal c k) o /\
  ((c <= u64_max)%Z -> (Z.abs k < 2 ^ 30)%Z -> o = from_parts c k \/ k = 0%Z /\ o = Some (f64_of_Z c)).
Proof.
  intros (ip & ds & ep & x & Et & Hi & (fs & Hp & Hc & Hk) & He) Hl.
  assert (Hr : read_num tok = option_map (if minus then fneg else fun f => f) (read_abs (ip ++ ds ++ ep))).
  { rewrite Et. destruct Hi as [Hne Hd]. destruct minus; [reflexivity|]. cbn [app]. destruct ip as [|d ip]; [contradiction|]. cbn [app]. inversion Hd; subst. unfold read_num.
    destruct (Byte.eqb d "-") eqn:E2; [apply Byte.byte_dec_bl in E2 as ->; unfold digit in H1; change (Byte.to_N x2d) with 45%N in H1; exfalso; lia|].
    destruct (read_abs _); reflexivity. }
  exists (read_abs (ip ++ ds ++ ep)). split; [exact Hr|]. apply numeral_iff in Hc as [Hd Hc]. assert (R := dfold_range Hd). rewrite <- Hc in R. split; [lia|].
  apply Forall_app in Hd as [_ Hf].
  assert (Hl2 : (len ip < 2 ^ 30 /\ len fs < 2 ^ 30)%Z).
  { rewrite Et in Hl. rewrite !app_length in Hl. assert (length fs <= length ds)%nat by (destruct Hp as [[-> ->]|[-> _]]; cbn [length]; lia). unfold len. lia. }
  assert (He2 : ep = [] \/ exists c s, ep = c :: s /\ is_e c = true) by (destruct He as [[-> _]|(e & s & es & n & -> & [-> | ->] & _)]; eauto).
  destruct (read_abs_of Hi Hp Hf He2) as (sig & e & (S1 & S2 & S3 & S4 & S5) & Hra). rewrite <- Hc in *. assert (HD := @decimal_nonneg sig e ltac:(lia)).
  assert (L1 := len_pos ip). assert (L2 := len_pos fs). fold (len fs) in Hk.
  destruct He as [[-> ->]|(b & s & es & n & -> & Hb & Hne & Hn & Hx)].
  - replace k with (- len fs)%Z by lia. assert (HV := @decimal_nonneg c (- len fs) ltac:(lia)). destruct Hra as [->|[-> ->]]; split.
    + eapply near_trunc; [exact HD|exact HV|exact S5|now apply from_parts_spec].
    + intros Hm _. destruct (S4 Hm) as [-> ->]. now left.
    + destruct (sig_num S1) as [N1 N2]. eapply near_trunc; [exact HD|exact HV|exact S5|]. exists (nearest (IZR sig)). split; [exact N1|]. split; [apply nearest_ge_0, IZR_le; lia|].
      rewrite decimal_0 in *. eapply Rle_trans; [exact N2|]. assert (E := bpow_ge_0 radix2 (-1074)). assert (U : u = / 9007199254740992) by reflexivity. rewrite U. lra.
    + intros Hm _. destruct (S4 Hm) as [-> E]. right. split; [lia|reflexivity].
  - apply numeral_iff in Hn as [Hdes Hn]. rewrite Hra. assert (HV := @decimal_nonneg c k ltac:(lia)). assert (Res : Digits es) by (split; assumption). split.
    + eapply read_exp_of; eauto; [lia| |].
      * intros E. rewrite (S3 E). unfold decimal. ring.
      * rewrite Hk. replace (x - len fs)%Z with (- len fs + x)%Z by lia. rewrite !decimal_scale.
        replace (decimal sig e * powerRZ 10 x - decimal c (- len fs) * powerRZ 10 x) with ((decimal sig e - decimal c (- len fs)) * powerRZ 10 x) by ring.
        assert (P := p10_pos x). rewrite Rabs_mult, (Rabs_pos_eq (powerRZ 10 x)) by lra. unfold Rdiv. rewrite (Rmult_comm (decimal c (- len fs)) (powerRZ 10 x)), Rmult_assoc, (Rmult_comm (powerRZ 10 x)).
        apply Rmult_le_compat_r; [lra|exact S5].
    + intros Hm Hk2. destruct (S4 Hm) as [-> ->]. left. destruct (@read_exp_eq c (- len fs) s es n x Res Hn Hx) as [Ex ->]. assert (Rn := dfold_range Hdes). rewrite <- Hn in Rn.
      replace (i32_max <? n)%Z with false by (symmetry; apply Z.ltb_ge; unfold i32_max; destruct (minus_sign s); lia). f_equal.
      unfold i32_clamp, i32_min, i32_max. lia.
Qed.
