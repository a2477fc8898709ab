(** Rounding to the nearest [f64], over the reals. *)
From Coq Require Import Bool ZArith Reals Psatz.
From Flocq Require Import Core.
From Verif Require Import SpecNum.
Set Implicit Arguments.
Local Open Scope R_scope.

Notation fexp64 := (FLT_exp (-1074) 53).
Notation F64 := (generic_format radix2 fexp64).
#[global] Instance fexp64_valid : Valid_exp fexp64 := @FLT_exp_valid (-1074) 53 eq_refl.

Lemma nearest_F r : F64 (nearest r).
Proof. apply generic_format_round; [exact fexp64_valid|apply valid_rnd_N]. Qed.
Lemma nearest_id r : F64 r -> nearest r = r.
Proof. intros H. now apply round_generic; [apply valid_rnd_N|]. Qed.
Lemma nearest_le a b : a <= b -> nearest a <= nearest b.
Proof. intros H. apply round_le; [exact fexp64_valid|apply valid_rnd_N|exact H]. Qed.
Lemma nearest_opp r : nearest (- r) = - nearest r.
Proof. apply round_NE_opp. Qed.
Lemma nearest_pt r f : F64 f -> Rabs (nearest r - r) <= Rabs (f - r).
Proof. intros H. destruct (round_N_pt radix2 fexp64 (fun x => negb (Z.even x)) r) as [_ Hn]. apply Hn. exact H. Qed.
Lemma nearest_0 : nearest 0 = 0.
Proof. apply round_0. apply valid_rnd_N. Qed.
Lemma nearest_ge_0 r : 0 <= r -> 0 <= nearest r.
Proof. intros H. rewrite <- nearest_0. now apply nearest_le. Qed.

(** ** Numbers [m * 2^e] *)
Definition num (m e : Z) : R := IZR m * bpow radix2 e.
Lemma num_F m e : (Z.abs m <= 2 ^ 53)%Z -> (-1074 <= e)%Z -> F64 (num m e).
Proof.
  intros Hm He. destruct (Z.eq_dec (Z.abs m) (2 ^ 53)) as [E|E].
  - apply generic_format_abs_inv. unfold num. rewrite Rabs_mult, <- abs_IZR, E, (Rabs_pos_eq (bpow _ _)) by apply bpow_ge_0.
    change (IZR (2 ^ 53)) with (bpow radix2 53). rewrite <- bpow_plus. apply generic_format_bpow. unfold FLT_exp. lia.
  - apply generic_format_FLT. exists (Float radix2 m e); [reflexivity|simpl; lia|simpl; lia].
Qed.
(** [m] and [e] as the machine keeps them. *)
Definition canon (m e : Z) : Prop := (0 < m < 2 ^ 53 /\ -1074 <= e /\ (2 ^ 52 <= m \/ e = -1074))%Z.
Lemma bpow2_pos e : 0 < bpow radix2 e.
Proof. apply bpow_gt_0. Qed.
Lemma bpow2_split e a : bpow radix2 (e + a) = bpow radix2 e * bpow radix2 a.
Proof. apply bpow_plus. Qed.
Lemma canon_cexp m e : canon m e -> forall f, IZR m * bpow radix2 e <= f < IZR (m + 1) * bpow radix2 e -> cexp radix2 fexp64 f = e.
Proof.
  intros (Hm & He & Hc) f Hf. assert (P := bpow2_pos e). assert (M1 : 1 <= IZR m) by (apply IZR_le; lia).
  assert (Pf : 0 < f) by nra. unfold cexp.
  assert (Hu : f < bpow radix2 (e + 53)).
  { rewrite bpow2_split. change (bpow radix2 53) with (IZR (2 ^ 53)). assert (IZR (m + 1) <= IZR (2 ^ 53)) by (apply IZR_le; lia). nra. }
  assert (Hmag : (mag radix2 f <= e + 53)%Z) by (apply mag_le_bpow; [lra|rewrite Rabs_pos_eq by lra; exact Hu]).
  destruct Hc as [Hc| ->].
  - assert (Hl : (e + 53 <= mag radix2 f)%Z).
    { apply mag_ge_bpow. rewrite Rabs_pos_eq by lra. replace (e + 53 - 1)%Z with (e + 52)%Z by ring. rewrite bpow2_split.
      change (bpow radix2 52) with (IZR (2 ^ 52)). assert (IZR (2 ^ 52) <= IZR m) by (apply IZR_le; lia). nra. }
    unfold FLT_exp. lia.
  - unfold FLT_exp. lia.
Qed.
Lemma canon_scaled m e : canon m e -> forall f, IZR m * bpow radix2 e <= f < IZR (m + 1) * bpow radix2 e ->
  nearest f = IZR (ZnearestE (f / bpow radix2 e)) * bpow radix2 e.
Proof.
  intros Hc f Hf. unfold nearest, round, F2R, scaled_mantissa. simpl. rewrite (canon_cexp Hc Hf).
  rewrite bpow_opp. reflexivity.
Qed.
Lemma canon_ulp m e : canon m e -> ulp radix2 fexp64 (num m e) = bpow radix2 e.
Proof.
  intros H. assert (P := bpow2_pos e). destruct H as (Hm & He & Hc). assert (M1 : 1 <= IZR m) by (apply IZR_le; lia).
  rewrite ulp_neq_0 by (unfold num; apply Rgt_not_eq; nra). f_equal. apply (@canon_cexp m e); [repeat split; tauto|].
  unfold num. rewrite plus_IZR. lra.
Qed.
Lemma canon_F m e : canon m e -> F64 (num m e).
Proof. intros (Hm & He & Hc). apply num_F; lia. Qed.
Lemma num_pos m e : (0 < m)%Z -> 0 < num m e.
Proof. intros H. unfold num. assert (P := bpow2_pos e). assert (0 < IZR m) by (apply IZR_lt; lia). nra. Qed.
Lemma num_add m d e : num (m + d) e = num m e + IZR d * bpow radix2 e.
Proof. unfold num. rewrite plus_IZR. ring. Qed.
Lemma canon_succ m e : canon m e -> succ radix2 fexp64 (num m e) = num (m + 1) e.
Proof. intros H. rewrite succ_eq_pos by (left; apply num_pos; apply H). rewrite (canon_ulp H), num_add. ring. Qed.
(** The number below, which is nearer if [m] is a power of 2. *)
Definition halved (m e : Z) : bool := (m =? 2 ^ 52)%Z && negb (e =? -1074)%Z.
Lemma canon_pred m e : canon m e -> pred radix2 fexp64 (num m e) = if halved m e then num (2 ^ 53 - 1) (e - 1) else num (m - 1) e.
Proof.
  intros H. assert (P := bpow2_pos e). assert (Hp := num_pos e (proj1 (proj1 H))).
  assert (S : forall m' e', canon m' e' -> num (m' + 1) e' = num m e -> pred radix2 fexp64 (num m e) = num m' e').
  { intros m' e' H' E. rewrite <- E, <- (canon_succ H'). apply pred_succ; [exact fexp64_valid|]. now apply canon_F. }
  destruct H as (Hm & He & Hc). unfold halved. destruct (Z.eqb_spec m (2 ^ 52)) as [->|Em]; [destruct (Z.eqb_spec e (-1074)) as [->|Ee]|]; cbn [negb andb].
  - apply S; [split; [lia|]; split; [lia|tauto]|]. f_equal.
  - apply S; [split; [lia|]; split; [lia|left; lia]|]. replace e with (e - 1 + 1)%Z at 2 by ring. unfold num. rewrite bpow2_split. change (bpow radix2 1) with 2.
    change (IZR (2 ^ 53 - 1 + 1)) with 9007199254740992. change (IZR (2 ^ 52)) with 4503599627370496. ring.
  - destruct (Z.eq_dec m 1) as [->|E1].
    + assert (e = -1074)%Z as -> by lia. simpl. rewrite <- (succ_0 radix2 fexp64) || idtac.
      replace (num 1 (-1074)) with (succ radix2 fexp64 0).
      * rewrite pred_succ; [unfold num; simpl; lra|exact fexp64_valid|apply generic_format_0].
      * rewrite succ_0. rewrite ulp_FLT_0 by reflexivity. unfold num. lra.
    + apply S; [split; [lia|]; split; [lia|]; destruct Hc; [left; lia|tauto]|]. f_equal. lia.
Qed.

(** ** What is rounded to [m * 2^e] *)
Definition lower (m e : Z) : R := if halved m e then num (4 * m - 1) (e - 2) else num (4 * m - 2) (e - 2).
Definition upper (m e : Z) : R := num (4 * m + 2) (e - 2).
Lemma num_4 m e : num (4 * m) (e - 2) = num m e.
Proof. unfold num. replace e with (e - 2 + 2)%Z at 2 by ring. rewrite bpow2_split, mult_IZR. change (bpow radix2 2) with 4. ring. Qed.
Lemma canon_upper m e : canon m e -> upper m e = (num m e + succ radix2 fexp64 (num m e)) / 2.
Proof. intros H. rewrite (canon_succ H). unfold upper. rewrite <- (num_4 m e), <- (num_4 (m + 1) e). unfold num. rewrite !mult_IZR, !plus_IZR, !mult_IZR. lra. Qed.
Lemma canon_lower m e : canon m e -> lower m e = (num m e + pred radix2 fexp64 (num m e)) / 2.
Proof.
  intros H. rewrite (canon_pred H). unfold lower. destruct (halved m e) eqn:E.
  - apply andb_true_iff in E as [E _]. apply Z.eqb_eq in E as ->. rewrite <- (num_4 (2 ^ 52)).
    replace (e - 1)%Z with (e - 2 + 1)%Z by ring. unfold num. rewrite bpow2_split. change (bpow radix2 1) with 2.
    change (IZR (4 * 2 ^ 52 - 1)) with 18014398509481983. change (IZR (4 * 2 ^ 52)) with 18014398509481984. change (IZR (2 ^ 53 - 1)) with 9007199254740991. lra.
  - rewrite <- (num_4 m e), <- (num_4 (m - 1) e). unfold num. rewrite !mult_IZR, !minus_IZR, !mult_IZR. lra.
Qed.
Lemma halved_even m e : halved m e = true -> Z.even m = true.
Proof. intros E. apply andb_true_iff in E as [E _]. apply Z.eqb_eq in E as ->. reflexivity. Qed.

Lemma ZnearestE_half m : ZnearestE (IZR m + / 2) = if Z.even m then m else (m + 1)%Z.
Proof.
  unfold Znearest. assert (E : Zfloor (IZR m + / 2) = m) by (apply Zfloor_imp; rewrite plus_IZR; lra).
  rewrite E. replace (IZR m + / 2 - IZR m) with (/ 2) by ring. rewrite Rcompare_Eq by reflexivity.
  destruct (Z.even m); simpl; [reflexivity|]. apply Zceil_imp. rewrite plus_IZR, minus_IZR, plus_IZR. lra.
Qed.
Lemma nearest_upper m e : canon m e -> nearest (upper m e) = if Z.even m then num m e else num (m + 1) e.
Proof.
  intros H. assert (P := bpow2_pos e). assert (E : upper m e = (IZR m + / 2) * bpow radix2 e).
  { rewrite (canon_upper H), (canon_succ H). unfold num. rewrite plus_IZR. field. }
  rewrite (canon_scaled H) by (rewrite E, plus_IZR; nra). rewrite E. replace ((IZR m + / 2) * bpow radix2 e / bpow radix2 e) with (IZR m + / 2) by (field; lra).
  rewrite ZnearestE_half. now destruct (Z.even m).
Qed.
Lemma nearest_lower m e : canon m e -> nearest (lower m e) = if Z.even m then num m e else num (m - 1) e.
Proof.
  intros H. assert (P := bpow2_pos e).
  assert (S : forall m' e', canon m' e' -> pred radix2 fexp64 (num m e) = num m' e' -> lower m e = upper m' e').
  { intros m' e' H' E. rewrite (canon_lower H), (canon_upper H'), <- E. rewrite succ_pred; [lra|exact fexp64_valid|now apply canon_F]. }
  assert (Hp := canon_pred H). destruct (halved m e) eqn:E.
  - assert (Hev := halved_even _ _ E). rewrite Hev. apply andb_true_iff in E as [E1 E2]. apply Z.eqb_eq in E1 as ->. apply negb_true_iff, Z.eqb_neq in E2.
    assert (H' : canon (2 ^ 53 - 1) (e - 1)) by (destruct H as (A & B & C); split; [lia|]; split; [lia|left; lia]).
    rewrite (S _ _ H' Hp), (nearest_upper H'). change (Z.even (2 ^ 53 - 1)) with false. cbv iota. unfold num. replace e with (e - 1 + 1)%Z at 2 by ring. rewrite bpow2_split. change (bpow radix2 1) with 2.
    change (IZR (2 ^ 53 - 1 + 1)) with 9007199254740992. change (IZR (2 ^ 52)) with 4503599627370496. ring.
  - destruct (Z.eq_dec m 1) as [->|E1].
    + assert (e = -1074)%Z as -> by (destruct H as (A & B & C); lia). simpl Z.even. cbv iota. simpl (1 - 1)%Z. unfold lower. rewrite E. 
      change (4 * 1 - 2)%Z with 2%Z. unfold num at 2. rewrite Rmult_0_l.
      assert (H0 : nearest (num 2 (-1074 - 2)) <= 0); [|assert (0 <= nearest (num 2 (-1074 - 2))) by (apply nearest_ge_0; left; now apply num_pos); lra].
      replace (num 2 (-1074 - 2)) with (/ 2 * bpow radix2 (-1074)).
      * assert (Q := bpow2_pos (-1074)). remember (bpow radix2 (-1074)) as b eqn:Eb.
        assert (Ec : cexp radix2 fexp64 (/ 2 * b) = (-1074)%Z).
        { unfold cexp. assert (Hm : (mag radix2 (/ 2 * b) <= -1074)%Z) by (apply mag_le_bpow; [nra|rewrite Rabs_pos_eq by nra; rewrite <- Eb; nra]). unfold FLT_exp. lia. }
        unfold nearest, round, F2R, scaled_mantissa. cbn [Fnum Fexp]. rewrite Ec. replace (/ 2 * b * bpow radix2 (- -1074)) with (IZR 0 + / 2).
        -- rewrite ZnearestE_half. simpl Z.even. cbv iota. lra.
        -- rewrite bpow_opp, <- Eb. simpl IZR. field. lra.
      * unfold num. rewrite <- (Rmult_comm (bpow _ _)). change (-1074)%Z with (-1074 - 2 + 2)%Z at 1. rewrite bpow2_split. change (bpow radix2 2) with 4. lra.
    + assert (H' : canon (m - 1) e) by (destruct H as (A & B & C); split; [lia|]; split; [lia|]; unfold halved in E; destruct (Z.eqb_spec m (2 ^ 52)); destruct (Z.eqb_spec e (-1074)); simpl in E; try discriminate; destruct C; try tauto; left; lia).
      rewrite (S _ _ H' Hp), (nearest_upper H'). rewrite Z.even_sub. simpl (Z.even 1). replace (m - 1 + 1)%Z with m by ring. now destruct (Z.even m).
Qed.
(** The numbers rounded to [m * 2^e] are those between the limits. *)
Lemma nearest_iff m e v : canon m e ->
  nearest v = num m e <-> if Z.even m then lower m e <= v <= upper m e else lower m e < v < upper m e.
Proof.
  intros H. assert (HF := canon_F H). assert (P := bpow2_pos e).
  assert (In : lower m e < v < upper m e -> nearest v = num m e).
  { intros [H1 H2]. rewrite (canon_lower H) in H1. rewrite (canon_upper H) in H2. apply Rle_antisym.
    - apply round_N_le_midp; [exact fexp64_valid|exact HF|exact H2].
    - apply round_N_ge_midp; [exact fexp64_valid|exact HF|exact H1]. }
  assert (Up : upper m e < v -> num m e < nearest v).
  { intros H1. rewrite (canon_upper H) in H1. apply Rlt_le_trans with (succ radix2 fexp64 (num m e)).
    - apply succ_gt_id. apply Rgt_not_eq. apply num_pos. apply H.
    - apply round_N_ge_midp; [exact fexp64_valid|apply generic_format_succ; [exact fexp64_valid|exact HF]|]. rewrite pred_succ; [lra|exact fexp64_valid|exact HF]. }
  assert (Lo : v < lower m e -> nearest v < num m e).
  { intros H1. rewrite (canon_lower H) in H1. apply Rle_lt_trans with (pred radix2 fexp64 (num m e)).
    - apply round_N_le_midp; [exact fexp64_valid|apply generic_format_pred; [exact fexp64_valid|exact HF]|]. rewrite succ_pred; [lra|exact fexp64_valid|exact HF].
    - apply pred_lt_id. apply Rgt_not_eq. apply num_pos. apply H. }
  assert (Eu := nearest_upper H). assert (El := nearest_lower H).
  assert (Nu : num (m + 1) e <> num m e) by (rewrite num_add; lra). assert (Nl : num (m - 1) e <> num m e) by (change (m - 1)%Z with (m + - 1)%Z; rewrite num_add; lra).
  destruct (Rtotal_order v (lower m e)) as [A|[->|A]].
  - specialize (Lo A). split; [lra|]. destruct (Z.even m); lra.
  - assert (lower m e < upper m e).
    { unfold lower, upper, num. assert (Q := bpow2_pos (e - 2)). destruct (halved m e); rewrite minus_IZR, plus_IZR; nra. }
    rewrite El. destruct (Z.even m); split; try tauto; try lra.
  - destruct (Rtotal_order v (upper m e)) as [B|[->|B]].
    + split; [|now intros _; apply In]. intros _. destruct (Z.even m); lra.
    + rewrite Eu. destruct (Z.even m); split; try tauto; try lra.
    + specialize (Up B). split; [lra|]. destruct (Z.even m); lra.
Qed.
