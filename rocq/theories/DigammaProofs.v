(** The error of [digamma] (src/prune.rs:322-335). *)
From Coq Require Import ZArith Reals Psatz.
From Flocq Require Import Core BinarySingleNaN.
From Verif Require Import Base F64 F64Proofs FloatErr Prune PruneProofs SpecDigamma SpecNumeric DigammaReal.
Set Implicit Arguments.
Local Open Scope R_scope.

Ltac numbers := unfold ulp_half, tiny in *; lra.
Lemma abs_le x y e : Rabs (x - y) <= e -> y - e <= x <= y + e.
Proof. intros H. apply DigammaReal.Rabs_le_inv in H. lra. Qed.

(** ** The loop *)
Lemma loop_error n : forall fuel x r w, (n <= 7)%nat -> (n <= fuel)%nat -> is_finite x = true -> is_finite r = true -> / 2 <= B2R x <= huge -> 7 - INR n <= B2R x -> Rabs (B2R r) <= 20 - 21 / 10 * INR n ->
  digamma_at (B2R x) w ->
  exists x' r' w', digamma_loop fuel x r = Ok (x', r') /\ is_finite x' = true /\ is_finite r' = true /\ 7 <= B2R x' <= huge /\ Rabs (B2R r') <= 20 /\
    digamma_at (B2R x') w' /\ Rabs (B2R r' + w' - (B2R r + w)) <= INR n * (60 * ulp_half).
Proof.
  destruct (@of_Z_exact 7 ltac:(lia)) as [F7 E7]. destruct f1_real as [F1 E1].
  induction n as [|n IH]; intros fuel x r w Hn Hfuel Fx Fr Hx Hx7 Hr Hw.
  - simpl INR in *. rewrite Rmult_0_r, Rminus_0_r in *. exists x, r, w. split.
    + assert (Hlt : fltb x (f64_of_Z 7) = false) by (rewrite fltb_finite, E7 by assumption; apply Rlt_bool_false; lra). destruct fuel; cbn [digamma_loop]; rewrite Hlt; reflexivity.
    + repeat split; try assumption; try lra. replace (B2R r + w - (B2R r + w)) with 0 by ring. rewrite Rabs_R0. lra.
  - assert (HI := pos_INR n). rewrite S_INR in *. assert (HB : INR n <= 6) by (replace 6 with (INR 6) by (simpl; lra); apply le_INR; lia).
    destruct fuel as [|fuel]; [lia|]. cbn [digamma_loop]. rewrite fltb_finite, E7 by assumption. destruct (Rlt_bool_spec (B2R x) 7) as [Hlt|Hge].
    + assert (Hinv : 0 < / B2R x <= 2) by (split; [apply Rinv_0_lt_compat; lra|rewrite <- (Rinv_inv 2); apply Rinv_le_contravar; lra]).
      destruct (@fadd_err x f1 8 Fx F1) as [Fx' Ex']; [rewrite E1; apply Rabs_le; lra|apply le_huge; lra|]. rewrite E1 in Ex'.
      destruct (@fdiv_err f1 x 2 F1) as [Fd Ed]; [lra|rewrite E1; unfold Rdiv; rewrite Rmult_1_l; apply Rabs_le; lra|apply le_huge; lra|]. rewrite E1 in Ed. unfold Rdiv in Ed. rewrite Rmult_1_l in Ed.
      apply abs_le in Ex'. apply abs_le in Ed. apply DigammaReal.Rabs_le_inv in Hr.
      destruct (@fsub_err r (fdiv f1 x) 30 Fr Fd) as [Fr' Er']; [apply Rabs_le; numbers|apply le_huge; lra|]. apply abs_le in Er'.
      assert (Hup := @digamma_up (B2R x) w ltac:(lra) Hw).
      assert (Hge : 7 - INR n <= B2R (fadd x f1)).
      { assert (Hstep : fleb (f64_of_Z (7 - Z.of_nat n)) (fadd x f1) = true).
        { replace (7 - Z.of_nat n)%Z with (7 - Z.of_nat (S n) + 1)%Z by lia. apply digamma_step.
          - replace (7 - Z.of_nat (S n))%Z with (Z.of_nat (6 - n)) by lia. assert (H : (6 - n <= 6)%nat) by lia. revert H. generalize (6 - n)%nat. intros j Hj.
            do 7 (destruct j as [|j]; [simpl; tauto|]). lia.
          - destruct (@of_Z_exact (7 - Z.of_nat (S n)) ltac:(lia)) as [Fk Ek]. rewrite fleb_finite, Ek by assumption. apply Rle_bool_true. rewrite minus_IZR, <- INR_IZR_INZ, S_INR. lra. }
        destruct (@of_Z_exact (7 - Z.of_nat n) ltac:(lia)) as [Fk Ek]. rewrite fleb_finite, Ek in Hstep by assumption. destruct (Rle_bool_spec (IZR (7 - Z.of_nat n)) (B2R (fadd x f1))) as [H|H]; [|discriminate].
        rewrite minus_IZR, <- INR_IZR_INZ in H. exact H. }
      destruct (@digamma_exists (B2R (fadd x f1)) ltac:(numbers)) as [w1 Hw1].
      assert (HL : Rabs (w1 - (w + / B2R x)) <= 2 * (8 * ulp_half + tiny)).
      { apply Rabs_le. destruct (Rle_or_lt (B2R x + 1) (B2R (fadd x f1))) as [Hle|Hgt].
        - assert (H := @digamma_lipschitz _ _ _ _ (conj (ltac:(lra) : 1 <= B2R x + 1) Hle) Hup Hw1). numbers.
        - assert (H := @digamma_lipschitz _ _ _ _ (conj (ltac:(numbers) : 1 <= B2R (fadd x f1)) (Rlt_le _ _ Hgt)) Hw1 Hup). numbers. }
      apply DigammaReal.Rabs_le_inv in HL.
      destruct (IH fuel (fadd x f1) (fsub r (fdiv f1 x)) w1) as (x' & r' & w' & HO & Fx2 & Fr2 & Hx2 & Hr2 & Hw2 & He); auto; try lia.
      * split; [numbers|apply le_huge; numbers].
      * apply Rabs_le. numbers.
      * exists x', r', w'. split; [exact HO|]. repeat split; try assumption; try lra. apply DigammaReal.Rabs_le_inv in He. apply Rabs_le. numbers.
    + exists x, r, w. repeat split; try assumption; try lra. replace (B2R r + w - (B2R r + w)) with 0 by ring. rewrite Rabs_R0. unfold ulp_half. nra.
Qed.

(** ** The series *)
Definition near (a : f64) (x : R) : Prop := is_finite a = true /\ Rabs (B2R a - x) <= ulp_half /\ Rabs x <= / 5.
Lemma near_mul a x b y : near a x -> near b y -> near (fmul a b) (x * y).
Proof.
  intros (Fa & Ea & Ha) (Fb & Eb & Hb).
  assert (Hxy : Rabs (x * y) <= / 5 * / 5) by (rewrite Rabs_mult; apply Rmult_le_compat; auto using Rabs_pos).
  assert (Hd : Rabs (B2R a * B2R b - x * y) <= / 2 * ulp_half).
  { replace (B2R a * B2R b - x * y) with ((B2R a - x) * (B2R b - y) + (B2R a - x) * y + x * (B2R b - y)) by ring.
    eapply Rle_trans; [apply Rabs_triang|]. eapply Rle_trans; [apply Rplus_le_compat_r, Rabs_triang|]. rewrite !Rabs_mult.
    assert (H0 := Rabs_pos (B2R a - x)). assert (H1 := Rabs_pos (B2R b - y)). assert (H2 := Rabs_pos x). assert (H3 := Rabs_pos y).
    assert (Rabs (B2R a - x) * Rabs (B2R b - y) <= ulp_half * ulp_half) by (apply Rmult_le_compat; assumption).
    assert (Rabs (B2R a - x) * Rabs y <= ulp_half * / 5) by (apply Rmult_le_compat; assumption).
    assert (Rabs x * Rabs (B2R b - y) <= / 5 * ulp_half) by (apply Rmult_le_compat; assumption). unfold ulp_half in *. lra. }
  destruct (@fmul_err a b (/ 10) Fa Fb) as [F E].
  - apply DigammaReal.Rabs_le_inv in Hd. apply DigammaReal.Rabs_le_inv in Hxy. apply Rabs_le. numbers.
  - apply le_huge. lra.
  - split; [exact F|]. split; [|lra]. apply DigammaReal.Rabs_le_inv in Hd. apply abs_le in E. apply Rabs_le. numbers.
Qed.
Lemma near_ratio n d : (Z.abs n <= 2 ^ 53)%Z -> (Z.abs d <= 2 ^ 53)%Z -> d <> 0%Z -> Rabs (IZR n / IZR d) <= / 5 -> near (fdiv (f64_of_Z n) (f64_of_Z d)) (IZR n / IZR d).
Proof.
  intros Hn Hd Hd0 H. destruct (of_Z_exact n Hn) as [Fn En]. destruct (of_Z_exact d Hd) as [Fd Ed].
  destruct (@fdiv_err (f64_of_Z n) (f64_of_Z d) (/ 5) Fn) as [F E]; [rewrite Ed; now apply IZR_neq|rewrite En, Ed; exact H|apply le_huge; lra|]. rewrite En, Ed in E.
  split; [exact F|]. split; [|exact H]. eapply Rle_trans; [exact E|]. numbers.
Qed.
Lemma half_div : is_finite (fdiv f1 (f64_of_Z 2)) = true /\ B2R (fdiv f1 (f64_of_Z 2)) = / 2.
Proof.
  destruct f1_real as [F1 E1]. destruct (@of_Z_exact 2 ltac:(lia)) as [F2 E2]. destruct fhalf_real as [Fh Eh].
  assert (H := Bdiv_correct prec64 emax64 _ _ mode_NE f1 (f64_of_Z 2) ltac:(rewrite E2; lra)). rewrite E1, E2 in H. replace (1 / 2) with (B2R fhalf) in H by (rewrite Eh; lra).
  rewrite round_generic in H by first [apply valid_rnd_N|apply generic_format_B2R]. rewrite Eh in H. rewrite Rlt_bool_true in H.
  - destruct H as (H1 & H2 & _). split; [unfold fdiv; rewrite H2; exact F1|exact H1].
  - rewrite Rabs_pos_eq by lra. apply Rlt_le_trans with (bpow radix2 0); [simpl; lra|apply bpow_le; unfold emax64; lia].
Qed.
Lemma ln_huge y : 1 <= y <= 2 * huge -> 0 <= ln y <= 1001.
Proof.
  intros [H1 H2]. split; [rewrite <- ln_1; destruct H1 as [H1|<-]; [left; apply ln_increasing; lra|lra]|].
  assert (Hl : ln y <= ln (2 * huge)) by (destruct H2 as [H2| ->]; [left; apply ln_increasing; lra|lra]). apply Rle_trans with (1 := Hl).
  replace (2 * huge) with (bpow radix2 1001) by (unfold huge; replace 1001%Z with (1 + 1000)%Z by lia; rewrite bpow_plus; reflexivity). rewrite bpow_exp, ln_exp.
  assert (H := @ln_diff 2 1 ltac:(lra) ltac:(lra)). rewrite ln_1 in H. change (IZR radix2) with 2. change (IZR 1001) with 1001. lra.
Qed.

Section Tail.
  Variables (lnf : f64 -> f64) (Hln : accurate_ln lnf).
  Variables (x : f64) (Fx : is_finite x = true) (Hx : 7 <= B2R x <= huge).
  Let z := B2R x - 1 / 2.
  Let y := fsub x (fdiv f1 (f64_of_Z 2)).

  Lemma y_near : is_finite y = true /\ Rabs (B2R y - z) <= z * (2 * ulp_half) /\ 6 <= B2R y <= 2 * huge.
  Proof.
    destruct half_div as [Fh Eh]. destruct (@fsub_err x (fdiv f1 (f64_of_Z 2)) (B2R x) Fx Fh) as [F E]; [rewrite Eh; apply Rabs_le; lra|apply Hx|]. rewrite Eh in E. fold y in F, E.
    apply abs_le in E. unfold z. split; [exact F|]. split; [apply Rabs_le; numbers|]. unfold huge in *. numbers.
  Qed.
  Lemma ln_near : is_finite (lnf y) = true /\ Rabs (B2R (lnf y) - ln z) <= 2010 * ulp_half /\ 0 <= ln z <= 1001.
  Proof.
    destruct y_near as (Fy & Ey & Hy). destruct (Hln y Fy ltac:(lra)) as [Fl El]. assert (Hz : 6.5 <= z <= 2 * huge) by (unfold z; lra).
    assert (HL := @ln_huge (B2R y) ltac:(lra)). assert (HLz := @ln_huge z ltac:(lra)). split; [exact Fl|]. split; [|exact HLz].
    rewrite (Rabs_pos_eq (ln (B2R y))) in El by lra. apply abs_le in El. apply abs_le in Ey.
    assert (L1 := @ln_diff (B2R y) z ltac:(lra) ltac:(lra)). assert (L2 := @ln_diff z (B2R y) ltac:(lra) ltac:(lra)).
    assert (B1 : (B2R y - z) / z <= 2 * ulp_half) by (apply (Rmult_le_reg_r z); [lra|]; unfold Rdiv; rewrite Rmult_assoc, Rinv_l by lra; lra).
    assert (B2 : (z - B2R y) / B2R y <= 3 * ulp_half) by (apply (Rmult_le_reg_r (B2R y)); [lra|]; unfold Rdiv; rewrite Rmult_assoc, Rinv_l by lra; numbers).
    assert (Hu : ln (B2R y) * / 4503599627370496 <= 1001 * (2 * ulp_half)) by (unfold ulp_half; lra). apply Rabs_le. numbers.
  Qed.
  Lemma q_near : near (fdiv f1 y) (/ z).
  Proof.
    destruct y_near as (Fy & Ey & Hy). destruct f1_real as [F1 E1]. assert (Hz : 6.5 <= z) by (unfold z; lra).
    assert (Hiy : 0 < / B2R y <= / 6) by (split; [apply Rinv_0_lt_compat|apply Rinv_le_contravar]; lra). assert (Hiz : 0 < / z <= / 6.5) by (split; [apply Rinv_0_lt_compat|apply Rinv_le_contravar]; lra).
    destruct (@fdiv_err f1 y (/ 6) F1) as [F E]; [lra|rewrite E1; unfold Rdiv; rewrite Rmult_1_l; apply Rabs_le; lra|apply le_huge; lra|]. rewrite E1 in E. unfold Rdiv in E. rewrite Rmult_1_l in E.
    split; [exact F|]. split; [|apply Rabs_le; lra].
    assert (Hd : Rabs (/ B2R y - / z) <= / 2 * ulp_half).
    { replace (/ B2R y - / z) with ((z - B2R y) * / z * / B2R y) by (field; lra). rewrite !Rabs_mult, (Rabs_pos_eq (/ z)), (Rabs_pos_eq (/ B2R y)), (Rabs_minus_sym z) by lra.
      assert (H1 : Rabs (B2R y - z) * / z <= 2 * ulp_half) by (apply (Rmult_le_reg_r z); [lra|]; rewrite Rmult_assoc, Rinv_l by lra; lra).
      assert (H0 := Rabs_pos (B2R y - z)). assert (0 <= Rabs (B2R y - z) * / z) by nra. unfold ulp_half in *. nra. }
    apply abs_le in E. apply DigammaReal.Rabs_le_inv in Hd. apply Rabs_le. numbers.
  Qed.

  Lemma series_error : let xx := fdiv f1 y in let xx2 := fmul xx xx in let xx4 := fmul xx2 xx2 in
    let s := fsub (fadd (fsub (fadd (lnf y) (fmul (fdiv f1 (f64_of_Z 24)) xx2)) (fmul (fdiv (f64_of_Z 7) (f64_of_Z 960)) xx4))
                 (fmul (fmul (fdiv (f64_of_Z 31) (f64_of_Z 8064)) xx4) xx2))
           (fmul (fmul (fdiv (f64_of_Z 127) (f64_of_Z 30720)) xx4) xx4) in
    is_finite s = true /\ Rabs (B2R s - S4 z) <= 6200 * ulp_half /\ Rabs (B2R s) <= 1005.
  Proof.
    intros xx xx2 xx4 s.
    assert (Hq : near xx (/ z)) by apply q_near.
    assert (Hq2 : near xx2 (/ z * / z)) by now apply near_mul.
    assert (Hq4 : near xx4 (/ z * / z * (/ z * / z))) by now apply near_mul.
    assert (H1 : near (fmul (fdiv f1 (f64_of_Z 24)) xx2) (1 / 24 * (/ z * / z))) by (apply near_mul; [apply (@near_ratio 1 24); try lia; apply Rabs_le; lra|assumption]).
    assert (H2 : near (fmul (fdiv (f64_of_Z 7) (f64_of_Z 960)) xx4) (7 / 960 * (/ z * / z * (/ z * / z)))) by (apply near_mul; [apply (@near_ratio 7 960); try lia; apply Rabs_le; lra|assumption]).
    assert (H3 : near (fmul (fmul (fdiv (f64_of_Z 31) (f64_of_Z 8064)) xx4) xx2) (31 / 8064 * (/ z * / z * (/ z * / z)) * (/ z * / z)))
      by (apply near_mul; [apply near_mul; [apply (@near_ratio 31 8064); try lia; apply Rabs_le; lra|assumption]|assumption]).
    assert (H4 : near (fmul (fmul (fdiv (f64_of_Z 127) (f64_of_Z 30720)) xx4) xx4) (127 / 30720 * (/ z * / z * (/ z * / z)) * (/ z * / z * (/ z * / z))))
      by (apply near_mul; [apply near_mul; [apply (@near_ratio 127 30720); try lia; apply Rabs_le; lra|assumption]|assumption]).
    subst s. clearbody xx xx2 xx4.
    assert (ES : S4 z = ln z + (1 / 24 * (/ z * / z)) - (7 / 960 * (/ z * / z * (/ z * / z))) + (31 / 8064 * (/ z * / z * (/ z * / z)) * (/ z * / z)) - (127 / 30720 * (/ z * / z * (/ z * / z)) * (/ z * / z * (/ z * / z))))
      by (unfold S4; rewrite <- !pow_inv; ring).
    revert H1 H2 H3 H4 ES; generalize (1 / 24 * (/ z * / z)) (7 / 960 * (/ z * / z * (/ z * / z))) (31 / 8064 * (/ z * / z * (/ z * / z)) * (/ z * / z)) (127 / 30720 * (/ z * / z * (/ z * / z)) * (/ z * / z * (/ z * / z)));
      generalize (fmul (fdiv f1 (f64_of_Z 24)) xx2) (fmul (fdiv (f64_of_Z 7) (f64_of_Z 960)) xx4) (fmul (fmul (fdiv (f64_of_Z 31) (f64_of_Z 8064)) xx4) xx2) (fmul (fmul (fdiv (f64_of_Z 127) (f64_of_Z 30720)) xx4) xx4);
      intros T1 T2 T3 T4 t1 t2 t3 t4 (G1 & E1 & B1) (G2 & E2 & B2) (G3 & E3 & B3) (G4 & E4 & B4) ES.
    destruct ln_near as (Fl & El & Bl); revert ES El Bl; generalize (ln z); intros lz ES El Bl; apply abs_le in El, E1, E2, E3, E4; apply DigammaReal.Rabs_le_inv in B1, B2, B3, B4.
    destruct (@fadd_err (lnf y) T1 1003 Fl G1) as [F1 X1]; [apply Rabs_le; numbers|apply le_huge; lra|]; apply abs_le in X1.
    destruct (@fsub_err _ T2 1004 F1 G2) as [F2 X2]; [apply Rabs_le; numbers|apply le_huge; lra|]; apply abs_le in X2.
    destruct (@fadd_err _ T3 1005 F2 G3) as [F3 X3]; [apply Rabs_le; numbers|apply le_huge; lra|]; apply abs_le in X3.
    destruct (@fsub_err _ T4 1006 F3 G4) as [F4 X4]; [apply Rabs_le; numbers|apply le_huge; lra|]; apply abs_le in X4.
    split; [exact F4|split].
    - rewrite ES. apply Rabs_le. numbers.
    - apply Rabs_le. numbers.
  Qed.
End Tail.

Lemma digamma_error lnf fuel x v : accurate_ln lnf -> (7 <= fuel)%nat -> is_finite x = true -> / 2 <= B2R x <= huge -> digamma_at (B2R x) v ->
  exists d, digamma lnf fuel x = Ok d /\ is_finite d = true /\ Rabs (B2R d - v) <= 6 / 100000000000 /\ Rabs (B2R d) <= 1031.
Proof.
  intros Hln Hfuel Fx Hx Hv. assert (E7 : INR 7 = 7) by (simpl; lra).
  destruct (@loop_error 7 fuel x f0 v (Nat.le_refl _) Hfuel Fx eq_refl Hx) as (x' & r' & w' & HO & Fx' & Fr' & Hx' & Hr' & Hw' & He); [lra|rewrite E7; simpl; rewrite Rabs_R0; lra|exact Hv|].
  rewrite E7 in He. change (B2R f0) with 0 in He. unfold digamma. rewrite HO. cbn [bind].
  assert (HS := @series_error lnf Hln x' Fx' Hx'). cbv zeta in *.
  match type of HS with is_finite ?a = true /\ _ => set (s := a) in * end. clearbody s. destruct HS as (Fs & Es & Bs).
  apply DigammaReal.Rabs_le_inv in He, Hr', Bs. apply abs_le in Es.
  destruct (@fadd_err r' s 1030 Fr' Fs) as [F E]; [apply Rabs_le; lra|apply le_huge; lra|]. apply abs_le in E.
  eexists. split; [reflexivity|]. split; [exact F|]. split; [|apply Rabs_le; numbers].
  assert (HB := digamma_bounds (proj1 Hx') Hw'). unfold S5 in HB. set (z := B2R x' - 1 / 2) in *.
  assert (Hz : 0 < / z <= 2 / 13) by (split; [apply Rinv_0_lt_compat; unfold z; lra|replace (2 / 13) with (/ (13 / 2)) by field; apply Rinv_le_contravar; unfold z; lra]).
  assert (H10 : 0 <= / z ^ 10 <= (2 / 13) ^ 10) by (rewrite <- pow_inv; split; [apply pow_le; lra|apply pow_incr; lra]).
  assert (H13 : (2 / 13) ^ 10 = 1024 / 137858491849) by field. rewrite H13 in H10. apply Rabs_le. numbers.
Qed.
