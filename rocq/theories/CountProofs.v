(** Numbers of things computed with floating point numbers: [(n as f64 * x) as usize]. *)
From Coq Require Import Reals Lra Lia.
From Flocq Require Import Core.Core IEEE754.BinarySingleNaN.
From Verif Require Import Base F64 F64Proofs SpecCli.
Set Implicit Arguments.
Local Open Scope R_scope.

Lemma Ztrunc_max x : Z.max 0 (Ztrunc x) = Z.max 0 (Zfloor x).
Proof.
  unfold Ztrunc. destruct (Rlt_bool_spec x 0) as [H|H]; [|reflexivity].
  assert (Zceil x <= 0)%Z by (apply Zceil_glb; simpl; lra).
  assert (Zfloor x <= 0)%Z; [|lia]. apply le_IZR. simpl. assert (Hf := Zfloor_lb x). lra.
Qed.

Lemma as_usize_finite (a : f64) : is_finite a = true ->
  Z.of_nat (f64_as_usize a) = Z.min usize_max (Z.max 0 (Zfloor (B2R a))).
Proof.
  intros Ha.
  assert (E : Z.of_nat (Z.to_nat (Z.min usize_max (Z.max 0 (Btrunc a)))) = Z.min usize_max (Z.max 0 (Zfloor (B2R a)))).
  { rewrite Z2Nat.id by (unfold usize_max; lia). f_equal. rewrite <- Ztrunc_max. f_equal.
    apply eq_IZR. rewrite Btrunc_correct by reflexivity. unfold round, F2R, scaled_mantissa. simpl.
    rewrite Rmult_1_r. now rewrite ?round_FIX_IZR, ?Rmult_1_r. }
  destruct a; try discriminate; exact E.
Qed.

Lemma format_Z z : (Z.abs z <= 2 ^ 53)%Z -> generic_format radix2 (SpecFloat.fexp prec64 emax64) (IZR z).
Proof.
  intros Hz. destruct (Z.eq_dec (Z.abs z) (2 ^ 53)) as [He|Hn].
  - assert (E : IZR z = bpow radix2 53 \/ IZR z = - bpow radix2 53).
    { destruct (Z.abs_eq_or_opp z) as [Ea|Ea]; [left|right].
      - replace z with (2 ^ 53)%Z by lia. rewrite <- (IZR_Zpower radix2) by lia. reflexivity.
      - replace z with (- 2 ^ 53)%Z by lia. rewrite opp_IZR, <- (IZR_Zpower radix2) by lia. reflexivity. }
    destruct E as [E|E]; rewrite E; [|apply generic_format_opp]; apply generic_format_bpow; vm_compute; discriminate.
  - apply generic_format_FLT. exists (Float radix2 z 0).
    + unfold F2R. simpl. lra.
    + simpl. change (radix2 ^ prec64)%Z with (2 ^ 53)%Z. lia.
    + vm_compute. discriminate.
Qed.

Lemma of_nat_exact n : (Z.of_nat n <= 2 ^ 53)%Z -> B2R (f64_of_nat n) = IZR (Z.of_nat n) /\ is_finite (f64_of_nat n) = true /\ Bsign (f64_of_nat n) = false.
Proof.
  intros Hn. unfold f64_of_nat, f64_of_Z, f64_of_Z_exp.
  assert (H := binary_normalize_correct prec64 emax64 _ _ mode_NE (Z.of_nat n) 0 false).
  assert (E : F2R (Float radix2 (Z.of_nat n) 0) = IZR (Z.of_nat n)) by (unfold F2R; simpl; lra). rewrite E in H.
  assert (Hr : round radix2 (SpecFloat.fexp prec64 emax64) (round_mode mode_NE) (IZR (Z.of_nat n)) = IZR (Z.of_nat n)).
  { apply round_generic; [apply valid_rnd_round_mode|]. apply format_Z. lia. }
  cbv zeta in H. simpl round_mode in *. rewrite Hr in H. rewrite Rlt_bool_true in H.
  2:{ rewrite Rabs_pos_eq by (apply IZR_le; lia). apply Rle_lt_trans with (IZR (2 ^ 53)); [now apply IZR_le|].
      change (2 ^ 53)%Z with (radix2 ^ 53)%Z. rewrite IZR_Zpower by lia. apply bpow_lt. reflexivity. }
  destruct H as (H1 & H2 & H3). split; [exact H1|]. split; [exact H2|]. rewrite H3.
  destruct (Rcompare_spec (IZR (Z.of_nat n)) 0) as [Hc|Hc|Hc]; try reflexivity. apply lt_IZR in Hc. lia.
Qed.

Lemma mul_finite (a b : f64) : is_finite a = true -> is_finite b = true ->
  (is_finite (fmul a b) = true /\ B2R (fmul a b) = rnd64 (B2R a * B2R b)) \/
  (bpow radix2 emax64 <= Rabs (rnd64 (B2R a * B2R b)) /\ fmul a b = B754_infinity (xorb (Bsign a) (Bsign b))).
Proof.
  intros Fa Fb. generalize (Bmult_correct prec64 emax64 _ _ mode_NE a b). simpl round_mode.
  case Rlt_bool_spec; intros Hr.
  - intros (H1 & H2 & _). rewrite Fa, Fb in H2. left. auto.
  - intros H. right. split; [exact Hr|]. unfold fmul. unfold binary_overflow in H. simpl in H.
    destruct (Bmult mode_NE a b) as [|s| |]; try discriminate. simpl in H. now injection H as ->.
Qed.

(** The share is what [firstn] takes. *)
Lemma firstn_Share {A} (l : list A) x : (Z.of_nat (length l) <= usize_max)%Z ->
  exists k, Share (length l) x k /\ firstn (f64_as_usize (fmul (f64_of_nat (length l)) x)) l = firstn k l.
Proof.
  intros Hl. unfold Share. set (y := fmul _ x).
  assert (Hf : is_finite y = true -> exists k, Z.of_nat k = Z.min (Z.of_nat (length l)) (Z.max 0 (Zfloor (B2R y))) /\ firstn (f64_as_usize y) l = firstn k l).
  { intros Fy. exists (Nat.min (length l) (f64_as_usize y)). assert (Hu := as_usize_finite _ Fy). split.
    - rewrite Nat2Z.inj_min, Hu. lia.
    - rewrite <- firstn_firstn. now rewrite firstn_all2 with (n := length l) by (rewrite firstn_length; lia). }
  destruct y as [s|s| |s m e He] eqn:E; try (apply Hf; reflexivity).
  - exists (if s then 0%nat else length l). split; [reflexivity|]. destruct s; [reflexivity|].
    rewrite firstn_all. apply firstn_all2. change (f64_as_usize (B754_infinity false)) with (Z.to_nat usize_max). lia.
  - exists 0%nat. now split.
Qed.
Lemma Share_fun n x k k' : Share n x k -> Share n x k' -> k = k'.
Proof. unfold Share. destruct (fmul _ _); lia. Qed.
Lemma Share_le n x k : Share n x k -> (k <= n)%nat.
Proof. unfold Share. destruct (fmul _ _) as [|[]| |]; lia. Qed.

(** A proportion of at least 1 takes everything; the default does. *)
Lemma Share_all n x k : (Z.of_nat n <= 2 ^ 53)%Z -> fleb f1 x = true -> Share n x k -> k = n.
Proof.
  intros Hn Hx HS. destruct (of_nat_exact n Hn) as (En & Fn & Sn).
  assert (E1 : B2R f1 = 1 /\ is_finite f1 = true) by (split; [|reflexivity]; exact (proj1 (of_nat_exact 1 ltac:(lia)))). destruct E1 as [E1 F1].
  assert (Hb : bpow radix2 emax64 > 0) by apply bpow_gt_0.
  destruct (is_finite x) eqn:Fx.
  - assert (Hx1 : 1 <= B2R x) by (rewrite (fleb_finite _ _ F1 Fx) in Hx; rewrite E1 in Hx; destruct (Rle_bool_spec 1 (B2R x)); [assumption|discriminate]).
    assert (Hge : IZR (Z.of_nat n) <= rnd64 (B2R (f64_of_nat n) * B2R x)).
    { apply round_ge_generic; [apply FLT_exp_valid; reflexivity|apply valid_rnd_N|apply format_Z; lia|]. rewrite En.
      rewrite <- (Rmult_1_r (IZR (Z.of_nat n))) at 1. apply Rmult_le_compat_l; [apply IZR_le; lia|exact Hx1]. }
    unfold Share in HS. destruct (mul_finite _ _ Fn Fx) as [[Ff Er]|[_ Er]].
    + rewrite <- Er in Hge. assert (Hfl : (Z.of_nat n <= Zfloor (B2R (fmul (f64_of_nat n) x)))%Z) by now apply Zfloor_lub.
      destruct (fmul (f64_of_nat n) x); try discriminate; lia.
    + rewrite Er, Sn in HS. assert (Sx : Bsign x = false) by (destruct (Bsign x) eqn:Sx; [|reflexivity]; apply (Bsign_nonpos _ Fx) in Sx; lra). now rewrite Sx in HS.
  - destruct x as [|[]| |]; try discriminate. destruct n as [|n]; [apply Share_le in HS; lia|].
    unfold Share in HS. destruct (f64_of_nat (S n)) as [s|s| |s m e He]; try discriminate; cbn [Bsign] in Sn; subst.
    + simpl in En. apply (eq_IZR 0) in En. lia.
    + exact HS.
Qed.
(** A negative proportion, zero or NaN takes nothing. *)
Lemma Share_none n x k : (Z.of_nat n <= 2 ^ 53)%Z -> fleb x f0 = true \/ f_is_nan x = true -> Share n x k -> k = 0%nat.
Proof.
  intros Hn Hx HS. destruct (of_nat_exact n Hn) as (En & Fn & Sn). unfold Share in HS.
  destruct (is_finite x) eqn:Fx.
  - destruct Hx as [Hx|Hx]; [|destruct x; discriminate].
    assert (Hx0 : B2R x <= 0) by (rewrite (fleb_finite _ _ Fx (eq_refl : is_finite f0 = true)) in Hx; simpl (B2R f0) in Hx; destruct (Rle_bool_spec (B2R x) 0); [assumption|discriminate]).
    assert (Hle : rnd64 (B2R (f64_of_nat n) * B2R x) <= 0).
    { apply round_le_generic; [apply FLT_exp_valid; reflexivity|apply valid_rnd_N|apply generic_format_0|]. rewrite En.
      assert (0 <= IZR (Z.of_nat n)) by (apply IZR_le; lia). nra. }
    destruct (mul_finite _ _ Fn Fx) as [[Ff Er]|[Hb Er]].
    + rewrite <- Er in Hle. assert (Hfl : (Zfloor (B2R (fmul (f64_of_nat n) x)) <= 0)%Z) by (apply le_IZR; assert (H := Zfloor_lb (B2R (fmul (f64_of_nat n) x))); simpl; lra).
      destruct (fmul (f64_of_nat n) x); try discriminate; lia.
    + rewrite Er, Sn in HS. destruct (Bsign x) eqn:Sx; [exact HS|]. apply (Bsign_nonneg _ Fx) in Sx. assert (B2R x = 0) by lra.
      rewrite H, Rmult_0_r, round_0, Rabs_R0 in Hb by apply valid_rnd_N. assert (H' := bpow_gt_0 radix2 emax64). lra.
  - destruct x as [|[]| |]; try discriminate; try (destruct Hx; discriminate).
    + destruct (f64_of_nat n) as [s|s| |s m e He]; try discriminate; cbn [Bsign] in Sn; subst; exact HS.
    + destruct (f64_of_nat n) as [s|s| |s m e He]; try discriminate; exact HS.
Qed.
