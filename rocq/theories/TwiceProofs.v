(** A decimal c / 10^k that is rounded twice: first c, then the quotient. *)
From Coq Require Import Bool ZArith Reals Psatz.
From Flocq Require Import Core.
From Verif Require Import SpecNum RoundProofs.
Set Implicit Arguments.
Local Open Scope R_scope.

Lemma IZR_bpow2 b : (0 <= b)%Z -> IZR (2 ^ b) = bpow radix2 b.
Proof. exact (IZR_Zpower radix2 b). Qed.

Lemma ZnearestE_tie r : Rabs (r - IZR (ZnearestE r)) = / 2 -> Z.even (ZnearestE r) = true.
Proof.
  intros H. set (q := ZnearestE r) in *. assert (Hr : r = IZR q + / 2 \/ r = IZR (q - 1) + / 2).
  { rewrite minus_IZR. unfold Rabs in H. destruct (Rcase_abs _); lra. }
  destruct Hr as [Hr|Hr]; assert (E := ZnearestE_half); [specialize (E q)|specialize (E (q - 1)%Z)]; rewrite <- Hr in E; fold q in E.
  - destruct (Z.even q); [reflexivity|lia].
  - rewrite Z.even_sub in E. simpl (Z.even 1) in E. destruct (Z.even q); [reflexivity|]. simpl in E. lia.
Qed.

(** Integers beyond 2^53. *)
Lemma int_round D : (2 ^ 53 <= D)%Z -> exists b q, (1 <= b /\ 2 ^ 52 <= q <= 2 ^ 53 /\ 2 ^ (b + 52) <= D < 2 ^ (b + 53) /\
  2 * Z.abs (D - q * 2 ^ b) <= 2 ^ b /\ (2 * Z.abs (D - q * 2 ^ b) = 2 ^ b -> Z.even q = true))%Z /\ nearest (IZR D) = IZR (q * 2 ^ b).
Proof.
  intros HD. set (b := (Z.log2 D - 52)%Z). assert (HL : (53 <= Z.log2 D)%Z) by (apply Z.log2_le_pow2; lia).
  assert (Hb : (1 <= b)%Z) by lia. destruct (Z.log2_spec D ltac:(lia)) as [L1 L2].
  replace (Z.log2 D) with (b + 52)%Z in L1 by lia. replace (Z.succ (Z.log2 D)) with (b + 53)%Z in L2 by lia.
  assert (Pb : (0 < 2 ^ b)%Z) by (apply Z.pow_pos_nonneg; lia).
  rewrite Z.pow_add_r in L1, L2 by lia. set (m := (D / 2 ^ b)%Z).
  assert (Hm : (m * 2 ^ b <= D < (m + 1) * 2 ^ b)%Z) by (unfold m; assert (A := Z.mul_div_le D (2 ^ b)); assert (B := Z.mul_succ_div_gt D (2 ^ b)); lia).
  assert (Hc : canon m b).
  { split; [|split; [lia|left]]; [split|].
    - assert (2 ^ 52 <= m)%Z; [|lia]. apply Z.div_le_lower_bound; lia.
    - apply Z.div_lt_upper_bound; lia.
    - apply Z.div_le_lower_bound; lia. }
  set (r := IZR D / bpow radix2 b). set (q := ZnearestE r). exists b, q.
  assert (P := bpow2_pos b). assert (Eb := @IZR_bpow2 b ltac:(lia)).
  assert (En : nearest (IZR D) = IZR (q * 2 ^ b)).
  { rewrite (canon_scaled Hc); [rewrite mult_IZR, Eb; reflexivity|]. rewrite <- Eb, <- !mult_IZR. split; [apply IZR_le|apply IZR_lt]; lia. }
  assert (Er : IZR D = r * bpow radix2 b) by (unfold r; field; lra).
  assert (Hh := Znearest_half (fun x => negb (Z.even x)) r). change (Znearest _ r) with q in Hh.
  assert (Hd : IZR (Z.abs (D - q * 2 ^ b)) = Rabs (r - IZR q) * bpow radix2 b).
  { rewrite abs_IZR, minus_IZR, mult_IZR, Eb, Er. rewrite <- (Rabs_pos_eq (bpow radix2 b)) at 3 by lra. rewrite <- Rabs_mult. f_equal. ring. }
  split; [|exact En]. split; [exact Hb|]. split; [|split; [rewrite !Z.pow_add_r by lia; lia|]]; [|split].
  - unfold q. split; apply le_IZR.
    + replace (IZR (2 ^ 52)) with (IZR (ZnearestE (IZR (2 ^ 52)))) by (f_equal; apply Znearest_IZR || (rewrite Zrnd_IZR; [reflexivity|apply valid_rnd_N])).
      apply IZR_le. apply Znearest_imp_le || (apply (@Zrnd_le ZnearestE (valid_rnd_N _))). unfold r. apply Rmult_le_reg_r with (bpow radix2 b); [exact P|].
      replace (IZR D / bpow radix2 b * bpow radix2 b) with (IZR D) by (field; lra). rewrite <- Eb, <- mult_IZR. apply IZR_le. lia.
    + replace (IZR (2 ^ 53)) with (IZR (ZnearestE (IZR (2 ^ 53)))) by (f_equal; rewrite Zrnd_IZR; [reflexivity|apply valid_rnd_N]).
      apply IZR_le. apply (@Zrnd_le ZnearestE (valid_rnd_N _)). unfold r. apply Rmult_le_reg_r with (bpow radix2 b); [exact P|].
      replace (IZR D / bpow radix2 b * bpow radix2 b) with (IZR D) by (field; lra). rewrite <- Eb, <- mult_IZR. apply IZR_le. lia.
  - apply le_IZR. rewrite mult_IZR, Hd, Eb. nra.
  - intros E. apply ZnearestE_tie. change (ZnearestE r) with q. apply (f_equal IZR) in E. rewrite mult_IZR, Hd, Eb in E. 
    apply Rmult_eq_reg_r with (bpow radix2 b); lra.
Qed.

Definition twice (D : Z) (P : R) : R := nearest (nearest (IZR D) / P).

Lemma int_near D : (2 ^ 53 <= D)%Z -> Rabs (nearest (IZR D) - IZR D) <= (IZR D - 1) / 9007199254740992.
Proof.
  intros HD. destruct (int_round HD) as (b & q & (Hb & Hq & HB & Hd & _) & E).
  assert (Pb : (0 < 2 ^ b)%Z) by (apply Z.pow_pos_nonneg; lia). rewrite !Z.pow_add_r in HB by lia.
  destruct (Z.eq_dec D (2 ^ b * 2 ^ 52)) as [Ep|Ep].
  - rewrite nearest_id.
    + rewrite Rminus_diag_eq by reflexivity. rewrite Rabs_R0. assert (1 <= IZR D) by (apply IZR_le; lia). lra.
    + rewrite Ep, mult_IZR, (@IZR_bpow2 b) by lia. rewrite Rmult_comm. apply (@num_F (2 ^ 52) b); lia.
  - rewrite E, <- minus_IZR, <- abs_IZR. rewrite Z.abs_opp || idtac.
    replace (q * 2 ^ b - D)%Z with (- (D - q * 2 ^ b))%Z by ring. rewrite Z.abs_opp.
    assert (HZ : (2 * Z.abs (D - q * 2 ^ b) * 2 ^ 52 <= D - 1)%Z) by nia.
    apply IZR_le in HZ. rewrite !mult_IZR, minus_IZR in HZ. change (IZR (2 ^ 52)) with 4503599627370496 in HZ. lra.
Qed.

Lemma twice_near D P n j : (2 ^ 53 < D)%Z -> 0 < P -> (2 ^ 52 <= n < 2 ^ 53)%Z -> (-1074 <= j)%Z -> Rabs (IZR D - P * num n j) <= / 2 ->
  pred radix2 fexp64 (num n j) <= twice D P <= succ radix2 fexp64 (num n j).
Proof.
  intros HD HP Hn Hj HX. assert (Hc : canon n j) by (split; [lia|split; [exact Hj|lia]]). assert (Q := bpow2_pos j).
  assert (HS := @int_near D ltac:(lia)). set (S := nearest (IZR D)) in *. unfold twice. fold S. set (g := P * bpow radix2 j).
  assert (Hg : 0 < g) by (unfold g; nra). assert (EX : P * num n j = IZR n * g) by (unfold num, g; ring). rewrite EX in HX.
  assert (D1 : 9007199254740993 <= IZR D) by (change 9007199254740993 with (IZR (2 ^ 53 + 1)); apply IZR_le; lia).
  assert (N1 : 4503599627370496 <= IZR n) by (change 4503599627370496 with (IZR (2 ^ 52)); apply IZR_le; lia).
  assert (N2 : IZR n <= 9007199254740991) by (change 9007199254740991 with (IZR (2 ^ 53 - 1)); apply IZR_le; lia).
  assert (HB : Rabs (S - IZR n * g) <= (IZR n * g - / 2) / 9007199254740992 + / 2).
  { assert (H3 := Rabs_triang (S - IZR D) (IZR D - IZR n * g)). replace (S - IZR D + (IZR D - IZR n * g)) with (S - IZR n * g) in H3 by ring.
    assert (HX3 := Rabs_le_inv _ _ HX). lra. }
  assert (HX1 : 9007199254740992 + / 2 <= IZR n * g) by (apply Rabs_le_inv in HX; lra).
  apply Rabs_le_inv in HB. clear HX HS. assert (N3 : IZR n * g <= 9007199254740991 * g) by nra.
  assert (ES : S / P * P = S) by (field; lra).
  assert (U : forall a, a * g < S -> a * bpow radix2 j < S / P) by (intros a Ha; apply Rmult_lt_reg_r with P; [lra|]; rewrite ES; unfold g in Ha; lra).
  assert (L : forall a, S < a * g -> S / P < a * bpow radix2 j) by (intros a Ha; apply Rmult_lt_reg_r with P; [lra|]; rewrite ES; unfold g in Ha; lra).
  assert (HF := canon_F Hc). split.
  - destruct (Z.eq_dec n (2 ^ 52)) as [->|E1]; [|destruct (Z.eq_dec n (2 ^ 52 + 1)) as [->|E2]].
    + (* a power of two *)
      change (IZR (2 ^ 52)) with 4503599627370496 in *.
      assert (HL : 4503599627370496 * bpow radix2 j - 3 / 4 * bpow radix2 j < S / P) by (replace (4503599627370496 * bpow radix2 j - 3 / 4 * bpow radix2 j) with ((4503599627370496 - 3 / 4) * bpow radix2 j) by ring; apply U; lra).
      assert (Hp := canon_pred Hc). unfold halved in Hp. change (2 ^ 52 =? 2 ^ 52)%Z with true in Hp. simpl (true && _) in Hp.
      destruct (Z.eqb_spec j (-1074)) as [->|Ej]; cbn [negb] in Hp; rewrite Hp.
      * apply Rle_trans with (nearest (num (2 ^ 52 - 1) (-1074))); [rewrite nearest_id by (apply num_F; lia); lra|]. apply nearest_le.
        unfold num. change (IZR (2 ^ 52 - 1)) with 4503599627370495. lra.
      * assert (Hc' : canon (2 ^ 53 - 1) (j - 1)) by (split; [lia|split; [lia|left; lia]]).
        apply round_N_ge_midp; [exact fexp64_valid|now apply canon_F|]. rewrite <- (Rplus_comm (pred _ _ _)). rewrite Rplus_comm.
        rewrite <- (canon_lower Hc'). unfold lower. replace (halved (2 ^ 53 - 1) (j - 1)) with false by reflexivity.
        refine (Rle_lt_trans _ _ _ _ HL). unfold num. replace (j - 1 - 2)%Z with (j - 3)%Z by ring. replace j with (j - 3 + 3)%Z at 2 3 by ring. rewrite bpow2_split. change (bpow radix2 3) with 8.
        change (IZR (4 * (2 ^ 53 - 1) - 2)) with 36028797018963962. assert (Q3 := bpow2_pos (j - 3)). lra.
    + change (IZR (2 ^ 52 + 1)) with 4503599627370497 in *.
      apply Rle_trans with (nearest (num (2 ^ 52) j)); [rewrite nearest_id by (apply num_F; lia)|].
      * assert (Hp := canon_pred Hc). rewrite Hp. replace (halved (2 ^ 52 + 1) j) with false by reflexivity. replace (2 ^ 52 + 1 - 1)%Z with (2 ^ 52)%Z by ring. lra.
      * apply nearest_le. left. unfold num. change (IZR (2 ^ 52)) with 4503599627370496. apply U. lra.
    + assert (Hp := canon_pred Hc). assert (Eh : halved n j = false) by (unfold halved; apply andb_false_iff; left; apply Z.eqb_neq; exact E1). rewrite Eh in Hp. rewrite Hp.
      assert (Hc' : canon (n - 1) j) by (split; [lia|split; [exact Hj|left; lia]]).
      assert (Eh' : halved (n - 1) j = false) by (unfold halved; apply andb_false_iff; left; apply Z.eqb_neq; lia).
      apply round_N_ge_midp; [exact fexp64_valid|now apply canon_F|]. rewrite <- (canon_lower Hc'). unfold lower. rewrite Eh'.
      unfold num. replace (4 * (n - 1) - 2)%Z with (4 * n - 6)%Z by ring. apply Rle_lt_trans with ((IZR n - 3 / 2) * bpow radix2 j); [|apply U; lra].
      replace j with (j - 2 + 2)%Z at 2 by ring. rewrite bpow2_split, minus_IZR, mult_IZR. change (bpow radix2 2) with 4. assert (Q3 := bpow2_pos (j - 2)). lra.
  - apply round_N_le_midp; [exact fexp64_valid|apply generic_format_succ; [exact fexp64_valid|exact HF]|].
    assert (Hp := num_pos j (proj1 (proj1 Hc))).
    assert (E1 : succ radix2 fexp64 (num n j) = num n j + bpow radix2 j) by (rewrite (canon_succ Hc), num_add; ring).
    assert (E2 : succ radix2 fexp64 (num n j) + bpow radix2 j <= succ radix2 fexp64 (succ radix2 fexp64 (num n j))).
    { rewrite (succ_eq_pos radix2 fexp64 (succ radix2 fexp64 (num n j))) by (rewrite E1; lra). apply Rplus_le_compat_l.
      rewrite <- (canon_ulp Hc). apply ulp_le_pos; [exact fexp64_valid|apply FLT_exp_monotone|left; exact Hp|rewrite E1; lra]. }
    assert (S / P < (IZR n + 3 / 2) * bpow radix2 j) by (apply L; lra). rewrite E1 in *. unfold num in *. lra.
Qed.

Lemma pow2_mod5 w : (0 <= w)%Z -> (2 ^ w mod 5 <> 0)%Z.
Proof.
  intros Hw. rewrite <- (Z2Nat.id w) by exact Hw. induction (Z.to_nat w) as [|n IH]; [discriminate|].
  rewrite Nat2Z.inj_succ, Z.pow_succ_r by lia. Z.div_mod_to_equations. lia.
Qed.
Lemma pow10_not_pow2 K a b : (1 <= K)%Z -> IZR (10 ^ K) * bpow radix2 a <> bpow radix2 b.
Proof.
  intros HK E. assert (Q := bpow2_pos a).
  assert (E' : IZR (10 ^ K) = bpow radix2 (b - a)).
  { replace (b - a)%Z with (b + - a)%Z by ring. rewrite bpow2_split, <- E, bpow_opp. field. lra. }
  assert (H10 : (10 ^ K = 10 * 10 ^ (K - 1))%Z) by (rewrite <- Z.pow_succ_r by lia; f_equal; lia).
  assert (0 < 10 ^ (K - 1))%Z by (apply Z.pow_pos_nonneg; lia).
  destruct (Z.le_gt_cases 0 (b - a)) as [Hw|Hw].
  - rewrite <- IZR_bpow2 in E' by exact Hw. apply eq_IZR in E'. apply (pow2_mod5 Hw). rewrite <- E', H10. rewrite Z.mul_comm, Z.mul_mod, Z.mul_0_r by lia. reflexivity.
  - assert (bpow radix2 (b - a) < 1) by (change 1 with (bpow radix2 0); apply bpow_lt; exact Hw).
    assert (10 <= IZR (10 ^ K)) by (apply IZR_le; lia). lra.
Qed.

Lemma step_one q q2 h d : (0 < h -> (q - q2) * h = 2 * d -> 2 * Z.abs d <= h -> d <> 0 -> (q = q2 + 1 \/ q = q2 - 1) /\ 2 * Z.abs d = h)%Z.
Proof.
  intros Hh E Hd Hn. assert (H : (q - q2 = 1 \/ q - q2 = -1)%Z) by (assert (q - q2 <> 0)%Z by nia; assert (q - q2 < 2)%Z by nia; assert (-2 < q - q2)%Z by nia; lia).
  split; [lia|]. destruct H as [H|H]; rewrite H in E; lia.
Qed.

Lemma twice_once D D2 K x n j : let P := IZR (10 ^ K) in let y := num n j in
  (1 <= K)%Z -> (2 ^ 53 < D)%Z -> (2 ^ 53 < D2)%Z -> (2 ^ 52 < n < 2 ^ 53)%Z -> (-1074 <= j)%Z -> F64 x -> x <> y ->
  Rabs (IZR D - P * x) <= / 2 -> Rabs (IZR D2 - P * y) <= / 2 -> twice D P = y -> twice D2 P = y.
Proof.
  intros P y HK HD HD2 Hn Hj Fx Nxy HX HY Ey. unfold twice in *.
  assert (Hc : canon n j) by (split; [lia|split; [exact Hj|lia]]). assert (Q := bpow2_pos j).
  assert (HP : 0 < P) by (apply IZR_lt; apply Z.pow_pos_nonneg; lia).
  set (g := P * bpow radix2 j) in *. assert (Hg : 0 < g) by (unfold g; nra).
  assert (EY : P * y = IZR n * g) by (unfold y, num, g; ring). rewrite EY in HY.
  (* x is at least one step away *)
  assert (Eh : halved n j = false) by (unfold halved; apply andb_false_iff; left; apply Z.eqb_neq; lia).
  assert (Hxy : (IZR n + 1) * g <= P * x \/ P * x <= (IZR n - 1) * g).
  { assert (HF := canon_F Hc). destruct (Rtotal_order x y) as [H|[H|H]]; [right|contradiction|left].
    - apply (pred_ge_gt radix2 fexp64) in H; [|exact Fx|exact HF]. unfold y in H. rewrite (canon_pred Hc), Eh in H. unfold num in H. rewrite minus_IZR in H. unfold g. nra.
    - apply (succ_le_lt radix2 fexp64) in H; [|exact HF|exact Fx]. unfold y in H. rewrite (canon_succ Hc) in H. unfold num in H. rewrite plus_IZR in H. unfold g. nra. }
  destruct (@int_round D ltac:(lia)) as (b & q & (Hb & Hq & HB & Hd & Ht) & ES).
  destruct (@int_round D2 ltac:(lia)) as (b2 & q2 & (Hb2 & Hq2 & HB2 & Hd2 & Ht2) & ES2).
  rewrite ES in Ey. rewrite ES2. set (S := (q * 2 ^ b)%Z) in *. set (S2 := (q2 * 2 ^ b2)%Z) in *.
  assert (FS : F64 (IZR S)) by (rewrite <- ES; apply nearest_F). assert (FS2 : F64 (IZR S2)) by (rewrite <- ES2; apply nearest_F).
  (* S is within half a step of y *)
  assert (Hi : Rabs (IZR S - IZR n * g) <= g / 2).
  { assert (HS : IZR S = IZR S / P * P) by (field; lra). set (r := IZR S / P) in *.
    assert (H1 := @nearest_pt r (num (n + 1) j) ltac:(apply num_F; lia)). assert (H2 := @nearest_pt r (num (n - 1) j) ltac:(apply num_F; lia)).
    rewrite Ey in H1, H2. assert (Hr : Rabs (r - y) <= bpow radix2 j / 2).
    { unfold y in *. replace (n - 1)%Z with (n + - 1)%Z in H2 by ring. rewrite num_add in H1, H2. unfold Rabs in *.
      destruct (Rcase_abs (num n j - r)), (Rcase_abs (num n j + 1 * bpow radix2 j - r)), (Rcase_abs (num n j + -1 * bpow radix2 j - r)), (Rcase_abs (r - num n j)); lra. }
    rewrite HS. replace (r * P - IZR n * g) with ((r - y) * P) by (unfold y, num, g; ring). rewrite Rabs_mult, (Rabs_pos_eq P) by lra. unfold g. nra. }
  destruct (Z.eq_dec S S2) as [<-|NS]; [exact Ey|].
  (* it is enough to be strictly within half a step *)
  assert (Goal2 : Rabs (IZR S2 - IZR n * g) < g / 2 -> nearest (IZR S2 / P) = y).
  { intros H. apply (nearest_iff _ Hc). assert (Hl : lower n j < IZR S2 / P < upper n j).
    { unfold lower, upper. rewrite Eh. apply Rabs_lt_inv in H. assert (HS : IZR S2 / P * P = IZR S2) by (field; lra).
      assert (E4 : bpow radix2 j = bpow radix2 (j - 2) * 4) by (replace j with (j - 2 + 2)%Z at 1 by ring; rewrite bpow2_split; reflexivity).
      unfold num. rewrite minus_IZR, plus_IZR, mult_IZR. unfold g in H. rewrite E4 in H.
      split; apply Rmult_lt_reg_r with P; try lra; rewrite HS; lra. }
    destruct (Z.even n); lra. }
  (* integers *)
  assert (Hint : forall z, IZR n * g = IZR z + / 2 \/ IZR n * g = IZR z - / 2 -> forall z', g <> IZR z').
  { intros z Hz z' E. rewrite E, <- mult_IZR in Hz. assert (Hz2 : IZR (2 * (n * z') - 2 * z) = 1 \/ IZR (2 * (n * z') - 2 * z) = -1).
    { rewrite minus_IZR, (mult_IZR 2 (n * z')), (mult_IZR 2 z). lra. }
    destruct Hz2 as [Hz2|Hz2]; apply eq_IZR in Hz2; lia. }
  assert (Hle : (Z.abs (S2 - D2) <= Z.abs (S - D2))%Z).
  { apply le_IZR. rewrite !abs_IZR, !minus_IZR. rewrite <- ES2. apply nearest_pt. exact FS. }
  assert (Hh : Rabs (IZR n * g - IZR D2) <= / 2) by (rewrite <- Rabs_Ropp; replace (- (IZR n * g - IZR D2)) with (IZR D2 - IZR n * g) by ring; exact HY).
  set (eta := IZR n * g - IZR D2) in *. assert (HY' := Rabs_le_inv _ _ Hh).
  destruct (Z.eq_dec (Z.abs (S2 - D2)) (Z.abs (S - D2))) as [Ea|Na].
  - (* D2 lies half way between two numbers *)
    assert (Em : (S2 = 2 * D2 - S)%Z) by lia.
    assert (Pb2 : (0 < 2 ^ b2)%Z) by (apply Z.pow_pos_nonneg; lia). rewrite !Z.pow_add_r in HB2 by lia.
    assert (Pb : (0 < 2 ^ b)%Z) by (apply Z.pow_pos_nonneg; lia). rewrite !Z.pow_add_r in HB by lia.
    assert (Fb : forall a, (52 <= a <= 53)%Z -> F64 (IZR (2 ^ b2 * 2 ^ a))).
    { intros a Ha. rewrite mult_IZR, !IZR_bpow2 by lia. rewrite <- bpow_plus. apply generic_format_bpow. unfold FLT_exp. lia. }
    assert (Hnear : forall z, F64 (IZR z) -> (Z.abs (S2 - D2) <= Z.abs (z - D2))%Z).
    { intros z Hz. apply le_IZR. rewrite !abs_IZR, !minus_IZR. rewrite <- ES2. apply nearest_pt. exact Hz. }
    assert (HSlo : (2 ^ b2 * 2 ^ 52 <= S)%Z) by (specialize (Hnear _ (Fb 52%Z ltac:(lia))); lia).
    assert (HShi : (S <= 2 ^ b2 * 2 ^ 53)%Z) by (specialize (Hnear _ (Fb 53%Z ltac:(lia))); lia).
    assert (Hq' : exists q', (S = q' * 2 ^ b2)%Z).
    { destruct (Z.eq_dec S (2 ^ b2 * 2 ^ 53)) as [E|E]; [exists (2 ^ 53)%Z; lia|].
      set (m := (S / 2 ^ b2)%Z). assert (A := Z.mul_div_le S (2 ^ b2) Pb2). assert (B := Z.mul_succ_div_gt S (2 ^ b2) Pb2). fold m in A, B.
      assert (Hm1 : (2 ^ 52 <= m)%Z) by (apply Z.div_le_lower_bound; lia). assert (Hm2 : (m < 2 ^ 53)%Z) by (apply Z.div_lt_upper_bound; lia).
      assert (Hcm : canon m b2) by (split; [lia|split; [lia|left; exact Hm1]]).
      assert (Es := nearest_id FS). rewrite (canon_scaled Hcm) in Es by (rewrite <- (@IZR_bpow2 b2), <- !mult_IZR by lia; split; [apply IZR_le|apply IZR_lt]; lia).
      rewrite <- (@IZR_bpow2 b2), <- mult_IZR in Es by lia. apply eq_IZR in Es. eexists. symmetry. exact Es. }
    destruct Hq' as [q' Eq']. assert (Hstep := @step_one q' q2 (2 ^ b2) (D2 - S2) Pb2). destruct Hstep as [Hqq Htie]; [rewrite Z.mul_sub_distr_r, <- Eq'; fold S2; lia|exact Hd2|lia|].
    assert (Ev2 := Ht2 Htie).
    assert (Odd : Z.even q' = false) by (destruct Hqq as [-> | ->]; [rewrite Z.even_add|rewrite Z.even_sub]; rewrite Ev2; reflexivity).
    assert (Hq'r : (2 ^ 52 < q' < 2 ^ 53)%Z).
    { assert (q' <> 2 ^ 52)%Z by (intros ->; discriminate). assert (q' <> 2 ^ 53)%Z by (intros ->; discriminate). clear - HSlo HShi Eq' Pb2 H H0. nia. }
    assert (Ebb : b = b2).
    { assert (HSD : IZR S = nearest (IZR D)) by (now rewrite ES). destruct (Z.lt_trichotomy b b2) as [H|[H|H]]; [exfalso|exact H|exfalso].
      - assert (HDl : (D <= 2 ^ b2 * 2 ^ 52)%Z).
        { assert (2 ^ b * 2 <= 2 ^ b2)%Z; [|lia]. replace (2 ^ b * 2)%Z with (2 ^ (b + 1))%Z by (rewrite Z.pow_add_r by lia; ring). apply Z.pow_le_mono_r; lia. }
        apply IZR_le, nearest_le in HDl. rewrite <- HSD, (nearest_id (Fb 52%Z ltac:(lia))) in HDl. apply le_IZR in HDl. clear - HDl Eq' Hq'r Pb2. nia.
      - assert (HDl : (2 ^ b2 * 2 ^ 53 <= D)%Z).
        { assert (2 ^ b2 * 2 <= 2 ^ b)%Z; [|lia]. replace (2 ^ b2 * 2)%Z with (2 ^ (b2 + 1))%Z by (rewrite Z.pow_add_r by lia; ring). apply Z.pow_le_mono_r; lia. }
        apply IZR_le, nearest_le in HDl. rewrite <- HSD, (nearest_id (Fb 53%Z ltac:(lia))) in HDl. apply le_IZR in HDl. clear - HDl Eq' Hq'r Pb2. nia. }
    subst b2. assert (Eqq : q = q') by (apply (Z.mul_reg_r _ _ (2 ^ b)); [lia|exact Eq']). subst q'.
    assert (Hst : (2 * Z.abs (D - S) <= 2 ^ b - 2)%Z).
    { assert (2 * Z.abs (D - S) <> 2 ^ b)%Z by (intros E; rewrite (Ht E) in Odd; discriminate).
      assert (He : (2 ^ b = 2 * 2 ^ (b - 1))%Z) by (rewrite <- Z.pow_succ_r by lia; f_equal; lia). fold S in Hd. lia. }
    (* over the reals; h = 2^b *)
    assert (He : (2 ^ b = 2 * 2 ^ (b - 1))%Z) by (rewrite <- Z.pow_succ_r by lia; f_equal; lia). assert (P1 : (1 <= 2 ^ (b - 1))%Z) by lia.
    set (w := (2 ^ (b - 1))%Z) in *. assert (W1 : 1 <= IZR w) by (apply IZR_le; exact P1).
    assert (HX' := Rabs_le_inv _ _ HX). assert (Hi' := Rabs_le_inv _ _ Hi).
    assert (HDS : (S - w + 1 <= D <= S + w - 1)%Z) by lia. destruct HDS as [HDS1 HDS2]. apply IZR_le in HDS1, HDS2. rewrite plus_IZR, minus_IZR in HDS1. rewrite minus_IZR, plus_IZR in HDS2.
    assert (Hgw : g <> 2 * IZR w).
    { intros E. apply (@pow10_not_pow2 K j b HK). fold P. change (P * bpow radix2 j) with g. rewrite E, <- mult_IZR, <- He. apply IZR_bpow2. lia. }
    assert (Hcase : (S = D2 + w /\ S2 = D2 - w \/ S = D2 - w /\ S2 = D2 + w)%Z) by lia.
    apply Goal2. assert (Hint1 := Hint D2). assert (EnD : IZR n * g = IZR D2 + eta) by (unfold eta; ring).
    assert (Hi3 : IZR S - IZR D2 - eta <= g / 2 /\ - (g / 2) <= IZR S - IZR D2 - eta) by lra.
    assert (G3 : IZR S2 - IZR n * g = IZR S2 - IZR D2 - eta) by lra. rewrite G3.
    assert (HX3 : IZR D - / 2 <= P * x <= IZR D + / 2) by lra.
    assert (Hxy3 : IZR D2 + eta + g <= P * x \/ P * x <= IZR D2 + eta - g) by (destruct Hxy; [left|right]; lra).
    clear Hxy HX HX' Hi Hi' G3 HY Goal2 EY Ht Ht2 Hnear Fb.
    destruct Hcase as [[Es Es2]|[Es Es2]]; apply (f_equal IZR) in Es, Es2; rewrite plus_IZR in *; rewrite minus_IZR in *.
    + assert (Heta : eta <= 0).
      { destruct (Rle_or_lt eta 0) as [H|H]; [exact H|exfalso]. destruct Hxy3 as [H3|H3].
        - assert (eta = / 2) by lra. apply (Hint1 ltac:(left; lra) (2 * w - 1)%Z). rewrite minus_IZR, mult_IZR. lra.
        - lra. }
      apply Rabs_lt. lra.
    + assert (Heta : 0 <= eta).
      { destruct (Rle_or_lt 0 eta) as [H|H]; [exact H|exfalso]. destruct Hxy3 as [H3|H3].
        - lra.
        - assert (eta = - / 2) by lra. apply (Hint1 ltac:(right; lra) (2 * w - 1)%Z). rewrite minus_IZR, mult_IZR. lra. }
      apply Rabs_lt. lra.
  - assert (Hlt : (Z.abs (S2 - D2) <= Z.abs (S - D2) - 1)%Z) by lia.
    assert (Hlt' := IZR_le _ _ Hlt). rewrite minus_IZR, !abs_IZR, !minus_IZR in Hlt'.
    assert (T1 := Rabs_triang (IZR S2 - IZR D2) (- eta)). replace (IZR S2 - IZR D2 + - eta) with (IZR S2 - IZR n * g) in T1 by (unfold eta; ring). rewrite Rabs_Ropp in T1.
    assert (T2 := Rabs_triang (IZR S - IZR n * g) eta). replace (IZR S - IZR n * g + eta) with (IZR S - IZR D2) in T2 by (unfold eta; ring).
    apply Goal2. destruct (Rle_lt_or_eq_dec (Rabs (IZR S2 - IZR n * g)) (g / 2) ltac:(lra)) as [H|H]; [exact H|exfalso].
    assert (Eeta : Rabs eta = / 2) by lra. assert (EA : Rabs (IZR S - IZR D2) = g / 2 + / 2) by lra.
    apply (Hint D2) with (z' := (2 * Z.abs (S - D2) - 1)%Z).
    + unfold eta, Rabs in Eeta. destruct (Rcase_abs _); [right|left]; lra.
    + rewrite minus_IZR, mult_IZR, abs_IZR, minus_IZR. lra.
Qed.
