(** The digamma function and its asymptotic series, over the real numbers. *)
From Coq Require Import Reals Lra Lia Psatz.
From Verif Require Import SpecDigamma.
Set Implicit Arguments.
Local Open Scope R_scope.

(** ** The series *)
Definition S4 (y : R) : R := ln y + (1 / 24 * / y ^ 2 + - (7 / 960) * / y ^ 4 + 31 / 8064 * / y ^ 6 + - (127 / 30720) * / y ^ 8).
Definition S5 (y : R) : R := S4 y + 511 / 67584 * / y ^ 10.
(** The error of a step. *)
Definition D4 (t : R) : R := S4 (t + 1 / 2) - S4 (t + - (1 / 2)) - / t.
Definition D5 (t : R) : R := S5 (t + 1 / 2) - S5 (t + - (1 / 2)) - / t.

Lemma d_shift d t : derivable_pt_lim (fun t => t + d) t 1.
Proof.
  assert (H := derivable_pt_lim_plus id (fun _ => d) t 1 0 (derivable_pt_lim_id t) (derivable_pt_lim_const d t)). replace (1 + 0) with 1 in H by ring. exact H.
Qed.
Lemma d_ln d t : 0 < t + d -> derivable_pt_lim (fun t => ln (t + d)) t (/ (t + d)).
Proof.
  intros H. assert (H1 := derivable_pt_lim_comp (fun t => t + d) ln t 1 (/ (t + d)) (d_shift d t) (derivable_pt_lim_ln (t + d) H)). rewrite Rmult_1_r in H1. exact H1.
Qed.
Lemma d_inv d t : t + d <> 0 -> derivable_pt_lim (fun t => / (t + d)) t (- / (t + d) ^ 2).
Proof.
  intros H. assert (H1 := derivable_pt_lim_div (fun _ => 1) (fun t => t + d) t 0 1 (derivable_pt_lim_const 1 t) (d_shift d t) H).
  cbv beta in H1. replace ((0 * (t + d) - 1 * 1) / Rsqr (t + d)) with (- / (t + d) ^ 2) in H1 by (unfold Rsqr; field; exact H).
  intros eps He. destruct (H1 eps He) as [delta Hd]. exists delta. intros h Hh Hl. specialize (Hd h Hh Hl). unfold div_fct in Hd. 
  replace (/ (t + h + d) - / (t + d)) with (1 / (t + h + d) - 1 / (t + d)) by (unfold Rdiv; ring). exact Hd.
Qed.
Lemma d_pow d t k c : t + d <> 0 -> derivable_pt_lim (fun t => c * / (t + d) ^ k) t (- c * INR k * / (t + d) ^ (S k)).
Proof.
  intros H. 
  assert (H1 := derivable_pt_lim_comp (fun t => / (t + d)) (fun y => y ^ k) t (- / (t + d) ^ 2) (INR k * (/ (t + d)) ^ pred k) (d_inv H) (derivable_pt_lim_pow _ k)).
  assert (H2 := derivable_pt_lim_scal _ c t _ H1). 
  cbv beta in H2. replace (c * (INR k * (/ (t + d)) ^ pred k * - / (t + d) ^ 2)) with (- c * INR k * / (t + d) ^ S k) in H2.
  2: { destruct k as [|k]; [simpl; ring|]. rewrite <- pow_inv. cbn [pred pow]. field; exact H. }
  intros eps He. destruct (H2 eps He) as [delta Hd]. exists delta. intros h Hh Hl. specialize (Hd h Hh Hl). unfold mult_real_fct, comp in Hd. rewrite !pow_inv in Hd. exact Hd.
Qed.

Definition S4' (y : R) : R := / y + (- (1 / 24) * 2 * / y ^ 3 + (7 / 960) * 4 * / y ^ 5 + - (31 / 8064) * 6 * / y ^ 7 + (127 / 30720) * 8 * / y ^ 9).
Definition S5' (y : R) : R := S4' y + - (511 / 67584) * 10 * / y ^ 11.
Lemma d_S4 d t : 0 < t + d -> derivable_pt_lim (fun t => S4 (t + d)) t (S4' (t + d)).
Proof.
  intros H. assert (H0 : t + d <> 0) by lra. unfold S4'.
  replace (- (1 / 24) * 2 * / (t + d) ^ 3) with (- (1 / 24) * INR 2 * / (t + d) ^ 3) by (simpl; lra).
  replace (7 / 960 * 4 * / (t + d) ^ 5) with (- - (7 / 960) * INR 4 * / (t + d) ^ 5) by (simpl INR; lra).
  replace (- (31 / 8064) * 6 * / (t + d) ^ 7) with (- (31 / 8064) * INR 6 * / (t + d) ^ 7) by (simpl INR; lra).
  replace (127 / 30720 * 8 * / (t + d) ^ 9) with (- - (127 / 30720) * INR 8 * / (t + d) ^ 9) by (simpl INR; lra).
  apply derivable_pt_lim_plus; [now apply d_ln|]. repeat apply derivable_pt_lim_plus; now apply d_pow.
Qed.
Lemma d_S5 d t : 0 < t + d -> derivable_pt_lim (fun t => S5 (t + d)) t (S5' (t + d)).
Proof.
  intros H. assert (H0 : t + d <> 0) by lra. unfold S5'. replace (- (511 / 67584) * 10 * / (t + d) ^ 11) with (- (511 / 67584) * INR 10 * / (t + d) ^ 11) by (simpl INR; lra).
  apply (derivable_pt_lim_plus (fun t => S4 (t + d)) (fun t => 511 / 67584 * / (t + d) ^ 10)); [now apply d_S4|now apply d_pow].
Qed.
Lemma d_D (f f' : R -> R) t : (forall d, 0 < t + d -> derivable_pt_lim (fun t => f (t + d)) t (f' (t + d))) -> 1 / 2 < t ->
  derivable_pt_lim (fun t => f (t + 1 / 2) - f (t + - (1 / 2)) - / t) t (f' (t + 1 / 2) - f' (t + - (1 / 2)) + / t ^ 2).
Proof.
  intros H Ht. replace (f' (t + 1 / 2) - f' (t + - (1 / 2)) + / t ^ 2) with (f' (t + 1 / 2) - f' (t + - (1 / 2)) - - / (t + 0) ^ 2) by (replace (t + 0) with t by ring; ring).
  apply (derivable_pt_lim_minus (fun t => f (t + 1 / 2) - f (t + - (1 / 2))) (fun t => / t)).
  - apply (derivable_pt_lim_minus (fun t => f (t + 1 / 2)) (fun t => f (t + - (1 / 2)))); apply H; lra.
  - assert (H1 := @d_inv 0 t ltac:(lra)). intros eps He. destruct (H1 eps He) as [delta Hd]. exists delta. intros h Hh Hl. specialize (Hd h Hh Hl). rewrite !Rplus_0_r in *. exact Hd.
Qed.
Lemma D4'_neg t : 7 <= t -> S4' (t + 1 / 2) - S4' (t + - (1 / 2)) + / t ^ 2 <= 0.
Proof.
  intros Ht. set (u := t - 7). assert (Hu : 0 <= u) by (unfold u; lra). replace t with (7 + u) by (unfold u; ring). clearbody u. clear t Ht. unfold S4'.
  match goal with |- ?a <= 0 => replace a with (- ((132769914289369 + u * (151508838467168 + u * (75656718071504 + u * (21592962333824 + u * (3852567800288 + u * (440009153024 + u * (31415689472 + u * (1281996800 + u * 22892800))))))))
    / (27525120 * ((7 + u + 1 / 2) ^ 9 * (7 + u + - (1 / 2)) ^ 9 * (7 + u) ^ 2)))) by (field; lra) end.
  assert (Hd : 0 < 27525120 * ((7 + u + 1 / 2) ^ 9 * (7 + u + - (1 / 2)) ^ 9 * (7 + u) ^ 2)).
  { repeat apply Rmult_lt_0_compat; try lra; apply pow_lt; lra. }
  assert (Hn : 0 <= 132769914289369 + u * (151508838467168 + u * (75656718071504 + u * (21592962333824 + u * (3852567800288 + u * (440009153024 + u * (31415689472 + u * (1281996800 + u * 22892800)))))))).
  { repeat (apply Rplus_le_le_0_compat; [lra|]; apply Rmult_le_pos; [exact Hu|]). lra. }
  assert (H := Rmult_le_pos _ _ Hn (Rlt_le _ _ (Rinv_0_lt_compat _ Hd))). unfold Rdiv. lra.
Qed.
Lemma D5'_pos t : 7 <= t -> 0 <= S5' (t + 1 / 2) - S5' (t + - (1 / 2)) + / t ^ 2.
Proof.
  intros Ht. set (u := t - 7). assert (Hu : 0 <= u) by (unfold u; lra). replace t with (7 + u) by (unfold u; ring). clearbody u. clear t Ht. unfold S5', S4'.
  match goal with |- 0 <= ?a => replace a with ((4563230600423545225 + u * (6500939388509547240 + u * (4168929529764267116 + u * (1584753478289520000 + u * (395458534916177568 + u * (67688733810061056 + u * (8048270238155136 + u * (656395076671488 + u * (35142363979008 + u * (1115286824960 + u * 15932668928))))))))))
    / (4844421120 * ((7 + u + 1 / 2) ^ 11 * (7 + u + - (1 / 2)) ^ 11 * (7 + u) ^ 2))) by (field; lra) end.
  assert (Hd : 0 < 4844421120 * ((7 + u + 1 / 2) ^ 11 * (7 + u + - (1 / 2)) ^ 11 * (7 + u) ^ 2)).
  { repeat apply Rmult_lt_0_compat; try lra; apply pow_lt; lra. }
  apply Rmult_le_pos; [|now apply Rlt_le, Rinv_0_lt_compat].
  repeat (apply Rplus_le_le_0_compat; [lra|]; apply Rmult_le_pos; [exact Hu|]). lra.
Qed.

(** ** Small quantities *)
Lemma Rabs_le_inv x y : Rabs x <= y -> - y <= x <= y.
Proof. unfold Rabs. destruct (Rcase_abs x); lra. Qed.
Lemma ln_diff a b : 0 < a -> 0 < b -> ln a - ln b <= (a - b) / b.
Proof.
  intros Ha Hb. assert (Hx : 0 < a / b) by now apply Rdiv_lt_0_compat. replace (ln a - ln b) with (ln (a / b)) by (unfold Rdiv; rewrite ln_mult, ln_Rinv by (auto using Rinv_0_lt_compat); ring).
  replace ((a - b) / b) with (a / b - 1) by (field; lra). generalize dependent (a / b). intros x Hx.
  destruct (Req_dec (ln x) 0) as [E|E].
  - assert (x = 1) by (apply ln_inv; [exact Hx|lra|rewrite ln_1; exact E]). subst x. rewrite ln_1. lra.
  - assert (H := exp_ineq1 _ E). rewrite exp_ln in H by exact Hx. lra.
Qed.
Lemma inv_pow_le y k : 1 <= y -> (1 <= k)%nat -> 0 < / y ^ k <= / y.
Proof.
  intros Hy Hk. assert (H : y ^ 1 <= y ^ k) by now apply Rle_pow. rewrite pow_1 in H. split; [apply Rinv_0_lt_compat; lra|]. apply Rinv_le_contravar; lra.
Qed.
Lemma S4_small y : 1 <= y -> Rabs (S4 y - ln y) <= / y.
Proof.
  intros Hy. unfold S4. assert (H2 := @inv_pow_le y 2 Hy ltac:(lia)). assert (H4 := @inv_pow_le y 4 Hy ltac:(lia)). assert (H6 := @inv_pow_le y 6 Hy ltac:(lia)). assert (H8 := @inv_pow_le y 8 Hy ltac:(lia)).
  apply Rabs_le. lra.
Qed.
Lemma S5_small y : 1 <= y -> Rabs (S5 y - ln y) <= / y.
Proof.
  intros Hy. unfold S5, S4. assert (H2 := @inv_pow_le y 2 Hy ltac:(lia)). assert (H4 := @inv_pow_le y 4 Hy ltac:(lia)). assert (H6 := @inv_pow_le y 6 Hy ltac:(lia)). assert (H8 := @inv_pow_le y 8 Hy ltac:(lia)).
  assert (H10 := @inv_pow_le y 10 Hy ltac:(lia)). apply Rabs_le. lra.
Qed.
Lemma D_small f t : (forall y, 1 <= y -> Rabs (f y - ln y) <= / y) -> 7 <= t -> Rabs (f (t + 1 / 2) - f (t + - (1 / 2)) - / t) <= 4 / (t - 1 / 2).
Proof.
  intros H Ht. assert (H1 := H (t + 1 / 2) ltac:(lra)). assert (H2 := H (t + - (1 / 2)) ltac:(lra)).
  assert (L1 := @ln_diff (t + 1 / 2) (t + - (1 / 2)) ltac:(lra) ltac:(lra)). assert (L2 := @ln_diff (t + - (1 / 2)) (t + 1 / 2) ltac:(lra) ltac:(lra)).
  replace (t - 1 / 2) with (t + - (1 / 2)) by lra. assert (Ea : t + 1 / 2 = t + - (1 / 2) + 1) by lra. assert (Hb : 6 <= t + - (1 / 2)) by lra.
  assert (I2 : 0 < / t <= / (t + - (1 / 2))) by (split; [apply Rinv_0_lt_compat|apply Rinv_le_contravar]; lra).
  revert H1 H2 L1 L2 Ea Hb I2. generalize (t + 1 / 2) (t + - (1 / 2)) (/ t). intros a b i H1 H2 L1 L2 -> Hb I2.
  assert (I1 : 0 < / (b + 1) <= / b) by (split; [apply Rinv_0_lt_compat|apply Rinv_le_contravar]; lra).
  replace ((b + 1 - b) / b) with (/ b) in L1 by (field; lra). replace ((b - (b + 1)) / (b + 1)) with (- / (b + 1)) in L2 by (field; lra). unfold Rdiv.
  apply Rabs_le. apply Rabs_le_inv in H1. apply Rabs_le_inv in H2. lra.
Qed.
Lemma decreasing_to_0 f f' : (forall t, 7 <= t -> derivable_pt_lim f t (f' t)) -> (forall t, 7 <= t -> f' t <= 0) -> (forall t, 7 <= t -> Rabs (f t) <= 4 / (t - 1 / 2)) ->
  forall t, 7 <= t -> 0 <= f t.
Proof.
  intros Hd Hn Hs t Ht. destruct (Rle_or_lt 0 (f t)) as [H|H]; [exact H|exfalso].
  set (e := - f t). assert (He : 0 < e) by (unfold e; lra). set (t' := t + 1 + 4 / e).
  assert (H4e : 0 < 4 / e) by (apply Rdiv_lt_0_compat; lra).
  destruct (MVT_cor2 f f' t t') as (c & Hc & Hc1 & Hc2); [unfold t'; lra|intros c Hc1 Hc2; apply Hd; lra|].
  assert (Hle : f t' <= f t) by (assert (Hx := Hn c ltac:(lra)); assert (0 < t' - t) by (unfold t'; lra); nra).
  assert (Hb := Hs t' ltac:(unfold t'; lra)). apply Rabs_le_inv in Hb.
  assert (Hlt : 4 / (t' - 1 / 2) < e).
  { assert (Hp : 0 < t' - 1 / 2) by (unfold t'; lra). apply (Rmult_lt_reg_r (t' - 1 / 2) _ _ Hp). unfold Rdiv at 1. rewrite Rmult_assoc, Rinv_l by lra.
    assert (E : e * (4 / e) = 4) by (field; lra). unfold t'. nra. }
  unfold e in *. lra.
Qed.
Lemma D4_pos t : 7 <= t -> 0 <= D4 t.
Proof.
  intros Ht. apply (@decreasing_to_0 D4 (fun t => S4' (t + 1 / 2) - S4' (t + - (1 / 2)) + / t ^ 2)); [|apply D4'_neg| |exact Ht].
  - intros u Hu. apply d_D; [intros d Hd; now apply d_S4|lra].
  - intros u Hu. apply D_small; [exact S4_small|exact Hu].
Qed.
Lemma D5_neg t : 7 <= t -> D5 t <= 0.
Proof.
  intros Ht. assert (H : 0 <= - D5 t); [|lra]. apply (@decreasing_to_0 (fun t => - D5 t) (fun t => - (S5' (t + 1 / 2) - S5' (t + - (1 / 2)) + / t ^ 2))); [| | |exact Ht].
  - intros u Hu. apply (derivable_pt_lim_opp D5). apply d_D; [intros d Hd; now apply d_S5|lra].
  - intros u Hu. assert (Hx := D5'_pos Hu). lra.
  - intros u Hu. rewrite Rabs_Ropp. apply D_small; [exact S5_small|exact Hu].
Qed.

(** ** The limit *)
Definition A (x : R) (n : nat) : R := ln (INR (S n)) - sum_f_R0 (fun k => / (x + INR k)) n.
Lemma telescope f x n : sum_f_R0 (fun k => f (x + INR k + 1 / 2) - f (x + INR k + - (1 / 2)) - / (x + INR k)) n =
  f (x + INR (S n) + - (1 / 2)) - f (x + - (1 / 2)) - sum_f_R0 (fun k => / (x + INR k)) n.
Proof.
  induction n as [|n IH].
  - cbn [sum_f_R0 INR]. replace (x + 1 + - (1 / 2)) with (x + 0 + 1 / 2) by lra. replace (x + 0 + - (1 / 2)) with (x + - (1 / 2)) by lra. reflexivity.
  - rewrite !tech5, IH. rewrite (S_INR (S n)). replace (x + (INR (S n) + 1) + - (1 / 2)) with (x + INR (S n) + 1 / 2) by lra. lra.
Qed.
Definition rest (f : R -> R) (x : R) (n : nat) : R := ln (INR (S n)) - f (x + INR (S n) + - (1 / 2)).
Lemma A_split f x n : A x n = rest f x n + f (x + - (1 / 2)) + sum_f_R0 (fun k => f (x + INR k + 1 / 2) - f (x + INR k + - (1 / 2)) - / (x + INR k)) n.
Proof. rewrite telescope. unfold A, rest. lra. Qed.
Lemma rest_small f x n : (forall y, 1 <= y -> Rabs (f y - ln y) <= / y) -> 7 <= x -> Rabs (rest f x n) <= (x + 1) / INR (S n).
Proof.
  intros H Hx. assert (Hn : 0 < INR (S n)) by apply lt_0_INR, Nat.lt_0_succ. unfold rest. set (m := INR (S n)) in *.
  assert (H1 := H (x + m + - (1 / 2)) ltac:(lra)). assert (L1 := @ln_diff m (x + m + - (1 / 2)) Hn ltac:(lra)). assert (L2 := @ln_diff (x + m + - (1 / 2)) m ltac:(lra) Hn).
  assert (I1 : / (x + m + - (1 / 2)) <= / m) by (apply Rinv_le_contravar; lra). assert (I2 : 0 < / (x + m + - (1 / 2))) by (apply Rinv_0_lt_compat; lra).
  replace ((x + m + - (1 / 2) - m) / m) with ((x + - (1 / 2)) * / m) in L2 by (unfold Rdiv; ring).
  assert (L3 : ln m - ln (x + m + - (1 / 2)) <= 0) by (assert ((m - (x + m + - (1 / 2))) / (x + m + - (1 / 2)) <= 0); [unfold Rdiv; nra|lra]).
  apply Rabs_le. apply Rabs_le_inv in H1. unfold Rdiv. assert (0 < / m) by now apply Rinv_0_lt_compat. nra.
Qed.
Lemma eventually_small c : 0 <= c -> forall eps, 0 < eps -> exists N, forall n, (N <= n)%nat -> c / INR (S n) < eps.
Proof.
  intros Hc eps He. destruct (archimed_cor1 (eps / (c + 1))) as (N & HN & HN0); [apply Rdiv_lt_0_compat; lra|]. exists N. intros n Hn.
  assert (HS : 0 < INR (S n)) by apply lt_0_INR, Nat.lt_0_succ. assert (H0 : 0 < INR N) by now apply lt_0_INR.
  assert (Hle : INR N <= INR (S n)) by (apply le_INR; lia). assert (Hi : / INR (S n) <= / INR N) by now apply Rinv_le_contravar.
  assert (Hlt : / INR (S n) < eps / (c + 1)) by lra. unfold Rdiv in *. assert (H1 : / INR (S n) * (c + 1) < eps) by (apply (Rmult_lt_compat_r (c + 1)) in Hlt; [|lra]; rewrite Rmult_assoc, Rinv_l in Hlt; lra).
  assert (0 < / INR (S n)) by now apply Rinv_0_lt_compat. nra.
Qed.
Lemma limit_ge u v c k : Un_cv u v -> 0 <= k -> (forall n, c - k / INR (S n) <= u n) -> c <= v.
Proof.
  intros Hu Hk H. destruct (Rle_or_lt c v) as [|Hlt]; [assumption|exfalso]. destruct (Hu ((c - v) / 2) ltac:(lra)) as [N1 HN1]. destruct (@eventually_small k Hk ((c - v) / 2) ltac:(lra)) as [N2 HN2].
  specialize (HN1 (N1 + N2)%nat ltac:(lia)). specialize (HN2 (N1 + N2)%nat ltac:(lia)). specialize (H (N1 + N2)%nat). unfold R_dist in HN1. apply Rabs_def2 in HN1. lra.
Qed.
Lemma limit_le u v c k : Un_cv u v -> 0 <= k -> (forall n, u n <= c + k / INR (S n)) -> v <= c.
Proof.
  intros Hu Hk H. destruct (Rle_or_lt v c) as [|Hlt]; [assumption|exfalso]. destruct (Hu ((v - c) / 2) ltac:(lra)) as [N1 HN1]. destruct (@eventually_small k Hk ((v - c) / 2) ltac:(lra)) as [N2 HN2].
  specialize (HN1 (N1 + N2)%nat ltac:(lia)). specialize (HN2 (N1 + N2)%nat ltac:(lia)). specialize (H (N1 + N2)%nat). unfold R_dist in HN1. apply Rabs_def2 in HN1. lra.
Qed.
Lemma sums_pos f n : (forall k, 0 <= f k) -> 0 <= sum_f_R0 f n.
Proof. intros H. induction n as [|n IH]; [apply H|]. rewrite tech5. specialize (H (S n)). lra. Qed.
Lemma sums_neg f n : (forall k, f k <= 0) -> sum_f_R0 f n <= 0.
Proof. intros H. induction n as [|n IH]; [apply H|]. rewrite tech5. specialize (H (S n)). lra. Qed.

(** The series is too small, and with one more term too great. *)
Lemma digamma_bounds x v : 7 <= x -> digamma_at x v -> S4 (x - 1 / 2) <= v <= S5 (x - 1 / 2).
Proof.
  intros Hx Hv. unfold Rminus. split.
  - apply limit_ge with (u := A x) (k := x + 1); [exact Hv|lra|]. intros n. rewrite (A_split S4). assert (H := @rest_small S4 x n S4_small Hx). apply Rabs_le_inv in H.
    assert (H0 := @sums_pos (fun k => D4 (x + INR k)) n). unfold D4 in H0. specialize (H0 (fun k => D4_pos (t := x + INR k) ltac:(assert (Hk := pos_INR k); lra))). lra.
  - apply limit_le with (u := A x) (k := x + 1); [exact Hv|lra|]. intros n. rewrite (A_split S5). assert (H := @rest_small S5 x n S5_small Hx). apply Rabs_le_inv in H.
    assert (H0 := @sums_neg (fun k => D5 (x + INR k)) n). unfold D5 in H0. specialize (H0 (fun k => D5_neg (t := x + INR k) ltac:(assert (Hk := pos_INR k); lra))). lra.
Qed.

(** ** The limit exists *)
Lemma digamma_down x v : x <> 0 -> digamma_at (x + 1) v -> digamma_at x (v - / x).
Proof.
  intros Hx H eps He. destruct (H (eps / 2) ltac:(lra)) as [N1 HN1]. destruct (@eventually_small 1 ltac:(lra) (eps / 2) ltac:(lra)) as [N2 HN2].
  exists (S (N1 + N2)). intros n Hn. destruct n as [|n]; [lia|]. specialize (HN1 n ltac:(lia)). specialize (HN2 n ltac:(lia)). unfold R_dist in *.
  assert (E : sum_f_R0 (fun k => / (x + INR k)) (S n) = / x + sum_f_R0 (fun k => / (x + 1 + INR k)) n).
  { rewrite decomp_sum by lia. cbn [pred]. f_equal; [cbn [INR]; f_equal; lra|]. apply sum_eq. intros k _. f_equal. rewrite S_INR. lra. }
  rewrite E. set (s := sum_f_R0 (fun k => / (x + 1 + INR k)) n) in *. rewrite (S_INR (S n)). assert (Hm : 0 < INR (S n)) by apply lt_0_INR, Nat.lt_0_succ. set (m := INR (S n)) in *.
  assert (L1 := @ln_diff (m + 1) m ltac:(lra) Hm). assert (L2 := @ln_diff m (m + 1) Hm ltac:(lra)). replace (m + 1 - m) with 1 in L1 by lra.
  assert (L3 : (m - (m + 1)) / (m + 1) <= 0) by (assert (0 < / (m + 1)) by (apply Rinv_0_lt_compat; lra); unfold Rdiv; nra).
  apply Rabs_def1; apply Rabs_def2 in HN1; lra.
Qed.
Lemma digamma_exists_7 x : 7 <= x -> exists v, digamma_at x v.
Proof.
  intros Hx. set (d := fun k => D4 (x + INR k)).
  assert (Hd : forall k, 0 <= d k) by (intros k; apply D4_pos; assert (Hk := pos_INR k); lra).
  assert (Hg : Un_growing (sum_f_R0 d)) by (intros n; rewrite tech5; specialize (Hd (S n)); lra).
  assert (Hb : has_ub (sum_f_R0 d)).
  { exists (511 / 67584 * / (x + - (1 / 2)) ^ 10). intros y [n ->].
    assert (H := telescope S4 x n). assert (H' := telescope S5 x n). fold d in H. change (fun k => S4 (x + INR k + 1 / 2) - S4 (x + INR k + - (1 / 2)) - / (x + INR k)) with d in H. rewrite H.
    assert (H0 := @sums_neg (fun k => D5 (x + INR k)) n (fun k => D5_neg (t := x + INR k) ltac:(assert (Hk := pos_INR k); lra))). unfold D5 in H0. rewrite H' in H0. unfold S5 in H0.
    assert (Hp : 0 < / (x + INR (S n) + - (1 / 2)) ^ 10) by (apply Rinv_0_lt_compat, pow_lt; assert (Hk := pos_INR (S n)); lra). lra. }
  destruct (growing_cv _ Hg Hb) as [l Hl]. exists (S4 (x + - (1 / 2)) + l). intros eps He. destruct (Hl (eps / 2) ltac:(lra)) as [N1 HN1]. destruct (@eventually_small (x + 1) ltac:(lra) (eps / 2) ltac:(lra)) as [N2 HN2].
  exists (N1 + N2)%nat. intros n Hn. specialize (HN1 n ltac:(lia)). specialize (HN2 n ltac:(lia)). unfold R_dist in *. fold (A x n). rewrite (A_split S4). 
  change (fun k => S4 (x + INR k + 1 / 2) - S4 (x + INR k + - (1 / 2)) - / (x + INR k)) with d.
  assert (H := @rest_small S4 x n S4_small Hx). apply Rabs_le_inv in H. apply Rabs_def1; apply Rabs_def2 in HN1; lra.
Qed.
Lemma digamma_exists x : 0 < x -> exists v, digamma_at x v.
Proof.
  intros Hx. assert (H : forall n x, 0 < x -> 7 - INR n <= x -> exists v, digamma_at x v).
  { clear. induction n as [|n IH]; intros x Hx Hn; [apply digamma_exists_7; simpl in Hn; lra|]. rewrite S_INR in Hn. destruct (IH (x + 1)) as [v Hv]; [lra|lra|]. exists (v - / x). apply digamma_down; [lra|exact Hv]. }
  apply (H 7%nat); [exact Hx|]. simpl. lra.
Qed.
Lemma digamma_unique x v w : digamma_at x v -> digamma_at x w -> v = w.
Proof. apply UL_sequence. Qed.
Lemma digamma_up x v : 0 < x -> digamma_at x v -> digamma_at (x + 1) (v + / x).
Proof.
  intros Hx Hv. destruct (@digamma_exists (x + 1) ltac:(lra)) as [w Hw]. assert (H := @digamma_down x w ltac:(lra) Hw). rewrite (digamma_unique Hv H). replace (w - / x + / x) with w by ring. exact Hw.
Qed.
(** It grows slowly. *)
Lemma digamma_relative a b v w : 0 < a <= b -> digamma_at a v -> digamma_at b w -> v <= w <= v + (1 + / a) * (b - a) * / a.
Proof.
  intros [Ha Hb] Hv Hw. assert (HS : Un_cv (fun n => A b n - A a n) (w - v)) by now apply CV_minus.
  assert (Hsum : forall n, A b n - A a n = sum_f_R0 (fun k => / (a + INR k) - / (b + INR k)) n).
  { intros n. unfold A. rewrite minus_sum. lra. }
  assert (Hterm : forall k, 0 <= / (a + INR k) - / (b + INR k) <= (b - a) * / (a + INR k) ^ 2).
  { intros k. assert (Hk := pos_INR k). split; [assert (/ (b + INR k) <= / (a + INR k)) by (apply Rinv_le_contravar; lra); lra|].
    replace (/ (a + INR k) - / (b + INR k)) with ((b - a) * (/ (a + INR k) * / (b + INR k))) by (field; lra). apply Rmult_le_compat_l; [lra|]. cbn [pow]. rewrite Rmult_1_r, Rinv_mult by lra.
    apply Rmult_le_compat_l; [apply Rlt_le, Rinv_0_lt_compat; lra|]. apply Rinv_le_contravar; lra. }
  assert (Hsq : forall n, sum_f_R0 (fun k => / (a + INR k) ^ 2) n <= (1 + / a) * / a - / (a + INR n)).
  { induction n as [|n IH].
    - cbn [sum_f_R0 INR]. rewrite Rplus_0_r. cbn [pow]. rewrite Rmult_1_r, Rinv_mult by lra. lra.
    - rewrite tech5. assert (Hk := pos_INR n). rewrite S_INR. set (y := a + INR n) in *. replace (a + (INR n + 1)) with (y + 1) by (unfold y; ring). assert (Hy : 0 < y) by (unfold y; lra).
      assert (H : / (y + 1) ^ 2 <= / y - / (y + 1)); [|lra]. replace (/ y - / (y + 1)) with (/ (y * (y + 1))) by (field; lra). apply Rinv_le_contravar; [nra|]. cbn [pow]. nra. }
  split.
  - assert (H : 0 <= w - v); [|lra]. apply limit_ge with (u := fun n => A b n - A a n) (k := 0); [exact HS|lra|]. intros n. rewrite Hsum. assert (H := sums_pos _ n (fun k => proj1 (Hterm k))). unfold Rdiv. lra.
  - assert (H : w - v <= (1 + / a) * (b - a) * / a); [|lra]. apply limit_le with (u := fun n => A b n - A a n) (k := 0); [exact HS|lra|]. intros n. rewrite Hsum.
    assert (H : sum_f_R0 (fun k => / (a + INR k) - / (b + INR k)) n <= sum_f_R0 (fun k => (b - a) * / (a + INR k) ^ 2) n) by (apply sum_Rle; intros k _; apply Hterm).
    rewrite <- scal_sum in H || (replace (sum_f_R0 (fun k => (b - a) * / (a + INR k) ^ 2) n) with ((b - a) * sum_f_R0 (fun k => / (a + INR k) ^ 2) n) in H by (rewrite scal_sum; apply sum_eq; intros; ring)).
    specialize (Hsq n). assert (0 < / (a + INR n)) by (apply Rinv_0_lt_compat; assert (Hk := pos_INR n); lra). unfold Rdiv. nra.
Qed.

Lemma digamma_lipschitz a b v w : 1 <= a <= b -> digamma_at a v -> digamma_at b w -> v <= w <= v + 2 * (b - a).
Proof.
  intros Hab Hv Hw. assert (H := @digamma_relative a b v w ltac:(lra) Hv Hw). assert (0 < / a <= 1) by (split; [apply Rinv_0_lt_compat; lra|rewrite <- Rinv_1; apply Rinv_le_contravar; lra]).
  assert (Hi : (1 + / a) * / a <= 2) by nra. assert ((b - a) * ((1 + / a) * / a) <= (b - a) * 2) by (apply Rmult_le_compat_l; lra). lra.
Qed.
