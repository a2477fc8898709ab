(** Monotonicity facts about binary64 addition and comparison. *)
From Coq Require Import ZArith Reals Psatz Bool.
From Flocq Require Import Core BinarySingleNaN.
From Verif Require Import F64.
Set Implicit Arguments.
Open Scope R_scope.

Notation rnd64 := (round radix2 (SpecFloat.fexp prec64 emax64) ZnearestE).

(** Finite numbers are compared as reals. *)
Lemma fleb_finite (a b : f64) :
  is_finite a = true -> is_finite b = true -> fleb a b = Rle_bool (B2R a) (B2R b).
Proof. intros. now apply Bleb_correct. Qed.
Lemma fltb_finite (a b : f64) :
  is_finite a = true -> is_finite b = true -> fltb a b = Rlt_bool (B2R a) (B2R b).
Proof. intros. now apply Bltb_correct. Qed.

(** [a < b] is the negation of [b <= a] when neither is NaN. *)
Lemma fltb_fleb (a b : f64) :
  f_is_nan a = false -> f_is_nan b = false -> fltb a b = negb (fleb b a).
Proof.
  intros Ha Hb.
  destruct (is_finite a) eqn:Fa, (is_finite b) eqn:Fb;
    [| destruct a as [| | |]; destruct b as [|[]| |]; try discriminate; try reflexivity; destruct s; reflexivity ..].
  rewrite fleb_finite, fltb_finite by assumption.
  destruct (Rlt_bool_spec (B2R a) (B2R b)), (Rle_bool_spec (B2R b) (B2R a)); try reflexivity; lra.
Qed.

Lemma fleb_refl (a : f64) : f_is_nan a = false -> fleb a a = true.
Proof.
  intros Ha. destruct (is_finite a) eqn:Fa.
  - rewrite fleb_finite by assumption. apply Rle_bool_true. lra.
  - destruct a as [|[]| |]; try discriminate; reflexivity.
Qed.

Lemma fleb_nan_l (a b : f64) : fleb a b = true -> f_is_nan a = false.
Proof. destruct a; try reflexivity. destruct b; discriminate. Qed.
Lemma fleb_nan_r (a b : f64) : fleb a b = true -> f_is_nan b = false.
Proof. destruct b; try reflexivity. destruct a as [|[]| |]; discriminate. Qed.
Lemma fltb_nan_l (a b : f64) : fltb a b = true -> f_is_nan a = false.
Proof. destruct a; try reflexivity. destruct b; discriminate. Qed.
Lemma fltb_nan_r (a b : f64) : fltb a b = true -> f_is_nan b = false.
Proof. destruct b; try reflexivity. destruct a as [|[]| |]; discriminate. Qed.

Lemma fleb_ninf_l (b : f64) : f_is_nan b = false -> fleb fninf b = true.
Proof. destruct b as [|[]| |]; try discriminate; reflexivity. Qed.
Lemma fleb_inf_r (b : f64) : f_is_nan b = false -> fleb b finf = true.
Proof. destruct b as [|[]| |]; try discriminate; reflexivity. Qed.

Lemma fleb_trans (a b c : f64) : fleb a b = true -> fleb b c = true -> fleb a c = true.
Proof.
  intros Hab Hbc.
  assert (Na := fleb_nan_l _ _ Hab). assert (Nb := fleb_nan_l _ _ Hbc). assert (Nc := fleb_nan_r _ _ Hbc).
  destruct (is_finite a) eqn:Fa.
  2: { destruct a as [|[]| |]; try discriminate; [now apply fleb_ninf_l|].
       destruct b as [|[]| |]; try discriminate. exact Hbc. }
  destruct (is_finite c) eqn:Fc.
  2: { destruct c as [|[]| |]; try discriminate; [|now apply fleb_inf_r].
       destruct b as [|[]| |]; try discriminate. exact Hab. }
  destruct (is_finite b) eqn:Fb.
  2: { destruct b as [|[]| |]; try discriminate; [destruct a|destruct c]; discriminate. }
  rewrite fleb_finite in * by assumption.
  apply Rle_bool_true.
  destruct (Rle_bool_spec (B2R a) (B2R b)), (Rle_bool_spec (B2R b) (B2R c)); try discriminate. lra.
Qed.

Lemma fltb_fleb_weak (a b : f64) : fltb a b = true -> fleb a b = true.
Proof.
  intros H. assert (Na := fltb_nan_l _ _ H). assert (Nb := fltb_nan_r _ _ H).
  rewrite fltb_fleb in H by assumption. apply negb_true_iff in H.
  destruct (is_finite a) eqn:Fa, (is_finite b) eqn:Fb.
  - rewrite fleb_finite in * by assumption. apply Rle_bool_true.
    destruct (Rle_bool_spec (B2R b) (B2R a)); [discriminate|lra].
  - destruct b as [|[]| |]; try discriminate; [|now apply fleb_inf_r].
    destruct a; discriminate.
  - destruct a as [|[]| |]; try discriminate; [now apply fleb_ninf_l|].
    destruct b; discriminate.
  - destruct a as [|[]| |], b as [|[]| |]; try discriminate; reflexivity.
Qed.

Lemma fleb_total (a b : f64) :
  f_is_nan a = false -> f_is_nan b = false -> fleb a b = true \/ fleb b a = true.
Proof.
  intros Na Nb. destruct (fleb a b) eqn:E; [now left|right].
  apply fltb_fleb_weak. rewrite fltb_fleb, E; auto.
Qed.

Lemma fltb_irrefl_rev (a b : f64) : fltb a b = true -> fleb b a = false.
Proof.
  intros H. assert (Na := fltb_nan_l _ _ H). assert (Nb := fltb_nan_r _ _ H).
  rewrite fltb_fleb in H by assumption. now apply negb_true_iff in H.
Qed.

Lemma fleb_fltb_trans (a b c : f64) : fleb a b = true -> fltb b c = true -> fltb a c = true.
Proof.
  intros H1 H2. assert (Na := fleb_nan_l _ _ H1). assert (Nc := fltb_nan_r _ _ H2).
  rewrite fltb_fleb by assumption. apply negb_true_iff.
  destruct (fleb c a) eqn:E; [|reflexivity]. apply fltb_irrefl_rev in H2.
  rewrite (fleb_trans _ _ _ E H1) in H2. discriminate.
Qed.

Lemma fltb_fleb_trans (a b c : f64) : fltb a b = true -> fleb b c = true -> fltb a c = true.
Proof.
  intros H1 H2. assert (Na := fltb_nan_l _ _ H1). assert (Nc := fleb_nan_r _ _ H2).
  rewrite fltb_fleb by assumption. apply negb_true_iff.
  destruct (fleb c a) eqn:E; [|reflexivity]. apply fltb_irrefl_rev in H1.
  rewrite (fleb_trans _ _ _ H2 E) in H1. discriminate.
Qed.

Lemma fltb_trans (a b c : f64) : fltb a b = true -> fltb b c = true -> fltb a c = true.
Proof. intros H1 H2. apply fltb_fleb_weak in H1. exact (fleb_fltb_trans _ _ _ H1 H2). Qed.

(** ** Addition of finite numbers *)

(** The sum overflows to an infinity of this sign, or is the rounded exact sum. *)
Lemma fadd_finite (a b : f64) :
  is_finite a = true -> is_finite b = true ->
  (Rabs (rnd64 (B2R a + B2R b)) < bpow radix2 emax64 /\
   is_finite (fadd a b) = true /\ B2R (fadd a b) = rnd64 (B2R a + B2R b)) \/
  (bpow radix2 emax64 <= Rabs (rnd64 (B2R a + B2R b)) /\
   fadd a b = B754_infinity (Bsign a) /\ Bsign a = Bsign b).
Proof.
  intros Fa Fb.
  generalize (Bplus_correct prec64 emax64 _ _ mode_NE a b Fa Fb). simpl round_mode.
  case Rlt_bool_spec; intros Hr.
  - intros (H1 & H2 & _). left. auto.
  - intros (H1 & H2). right. split; [exact Hr|]. split; [|exact H2].
    unfold fadd. unfold binary_overflow in H1. simpl in H1.
    destruct (Bplus mode_NE a b) as [|s| |]; try discriminate. simpl in H1. now injection H1 as ->.
Qed.

Lemma fadd_not_nan (a b : f64) :
  f_is_nan a = false -> is_finite b = true -> f_is_nan (fadd a b) = false.
Proof.
  intros Na Fb. destruct (is_finite a) eqn:Fa.
  - destruct (fadd_finite a b Fa Fb) as [(_ & H & _)|(_ & -> & _)]; [|reflexivity].
    unfold f_is_nan. destruct (fadd a b); try discriminate; reflexivity.
  - destruct a as [|s| |]; try discriminate. destruct b; try discriminate; reflexivity.
Qed.

Lemma Bsign_nonneg (a : f64) : is_finite a = true -> Bsign a = false -> 0 <= B2R a.
Proof.
  destruct a as [| | |s m e h]; try discriminate; simpl; intros _ Hs; [lra|]. subst s.
  apply F2R_ge_0. simpl. lia.
Qed.
Lemma Bsign_nonpos (a : f64) : is_finite a = true -> Bsign a = true -> B2R a <= 0.
Proof.
  destruct a as [| | |s m e h]; try discriminate; simpl; intros _ Hs; [lra|]. subst s.
  apply F2R_le_0. simpl. lia.
Qed.

(** Adding a finite number is monotone. *)
Lemma fadd_mono_l (a b w : f64) :
  is_finite w = true -> fleb a b = true -> fleb (fadd a w) (fadd b w) = true.
Proof.
  intros Fw Hab.
  assert (Na := fleb_nan_l _ _ Hab). assert (Nb := fleb_nan_r _ _ Hab).
  destruct (is_finite a) eqn:Fa.
  2: { destruct a as [|[]| |]; try discriminate.
       - replace (fadd (B754_infinity true) w) with fninf by (destruct w; try discriminate; reflexivity).
         apply fleb_ninf_l. now apply fadd_not_nan.
       - destruct b as [|[]| |]; try discriminate. destruct w; try discriminate; reflexivity. }
  destruct (is_finite b) eqn:Fb.
  2: { destruct b as [|[]| |]; try discriminate.
       - destruct a; discriminate.
       - replace (fadd (B754_infinity false) w) with finf by (destruct w; try discriminate; reflexivity).
         apply fleb_inf_r. now apply fadd_not_nan. }
  rewrite fleb_finite in Hab by assumption.
  assert (Hle : B2R a <= B2R b) by (destruct (Rle_bool_spec (B2R a) (B2R b)); [lra|discriminate]).
  assert (Hrle : rnd64 (B2R a + B2R w) <= rnd64 (B2R b + B2R w)).
  { apply round_le; [apply (fexp_correct prec64 emax64); exact prec64_gt_0|apply valid_rnd_N|lra]. }
  assert (Hr0 : forall x, 0 <= x -> 0 <= rnd64 x).
  { intros x Hx. apply round_ge_generic; [apply (fexp_correct prec64 emax64); exact prec64_gt_0|apply valid_rnd_N|apply generic_format_0|exact Hx]. }
  assert (Hr1 : forall x, x <= 0 -> rnd64 x <= 0).
  { intros x Hx. apply round_le_generic; [apply (fexp_correct prec64 emax64); exact prec64_gt_0|apply valid_rnd_N|apply generic_format_0|exact Hx]. }
  destruct (fadd_finite a w Fa Fw) as [(Ha1 & Ha2 & Ha3)|(Ha1 & Ha2 & Ha3)];
  destruct (fadd_finite b w Fb Fw) as [(Hb1 & Hb2 & Hb3)|(Hb1 & Hb2 & Hb3)].
  - rewrite fleb_finite by assumption. rewrite Ha3, Hb3. now apply Rle_bool_true.
  - rewrite Hb2. destruct (Bsign b) eqn:Sb.
    + exfalso. assert (H1 := Bsign_nonpos b Fb Sb). assert (H2 := Bsign_nonpos w Fw (eq_sym Hb3)).
      assert (H3 := Hr1 (B2R b + B2R w) ltac:(lra)). assert (H4 := Hr1 (B2R a + B2R w) ltac:(lra)).
      rewrite Rabs_left1 in Ha1, Hb1 by assumption. lra.
    + apply fleb_inf_r. unfold f_is_nan. destruct (fadd a w); try discriminate; reflexivity.
  - rewrite Ha2. destruct (Bsign a) eqn:Sa.
    + apply fleb_ninf_l. unfold f_is_nan. destruct (fadd b w); try discriminate; reflexivity.
    + exfalso. assert (H1 := Bsign_nonneg a Fa Sa). assert (H2 := Bsign_nonneg w Fw (eq_sym Ha3)).
      assert (H3 := Hr0 (B2R b + B2R w) ltac:(lra)). assert (H4 := Hr0 (B2R a + B2R w) ltac:(lra)).
      rewrite Rabs_pos_eq in Ha1, Hb1 by assumption. lra.
  - rewrite Ha2, Hb2. rewrite Ha3, Hb3. now apply fleb_refl.
Qed.
