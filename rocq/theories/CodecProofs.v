(** Printing a number and reading the text. *)
From Coq Require Import ZArith Reals Bool Lia Lra.
From Flocq Require Import Core BinarySingleNaN.
From Verif Require Import Base F64 F64Proofs Utf8 SpecUtf8 SpecJson Json SpecNum JsonNum RoundProofs TwiceProofs ShortestProofs PartsProofs JsonNumProofs PrintProofs.
Set Implicit Arguments.
Local Open Scope R_scope.

(** The text of [m * 2^e] is read as [r]. *)
Definition text (m e : Z) : bytes := let (c, k) := shortest m e in layout c k.
Definition reads (m e : Z) (r : R) : Prop := forall minus : bool, exists f, read_num (minus_text minus ++ text m e) = Some (if minus then fneg f else f) /\ pos_num f r.

(** ** Every number *)
Definition is_some (o : option f64) : bool := match o with Some _ => true | None => false end.
Lemma near_max : forall m, (2 ^ 53 - 4 <= m < 2 ^ 53)%Z -> is_some (read_num (text m 971)) = true.
Proof.
  intros m H. assert (E : (m = 2 ^ 53 - 4 \/ m = 2 ^ 53 - 3 \/ m = 2 ^ 53 - 2 \/ m = 2 ^ 53 - 1)%Z) by lia.
  destruct E as [->|[->|[->| ->]]]; vm_compute; reflexivity.
Qed.
Lemma reads_parts c k o : (0 < c < 10 ^ 17)%Z -> (o = from_parts c k \/ k = 0%Z /\ o = Some (f64_of_Z c)) ->
  match o with
  | Some f => exists r, pos_num f r /\ 0 <= r /\ Rabs (r - decimal c k) <= 7 * u * decimal c k + bpow radix2 (-1074)
  | None => bpow radix2 1024 <= (1 + 4 * u) * decimal c k
  end.
Proof.
  intros H [->|[-> ->]]; assert (S : (0 <= c <= u64_max)%Z) by (assert (10 ^ 17 < 2 ^ 64)%Z by reflexivity; unfold u64_max; lia).
  - now apply from_parts_spec.
  - destruct (sig_num S) as [N1 N2]. exists (nearest (IZR c)). split; [exact N1|]. split; [apply nearest_ge_0, IZR_le; lia|].
    rewrite decimal_0. eapply Rle_trans; [exact N2|]. assert (E := bpow_ge_0 radix2 (-1074)). assert (0 <= IZR c) by (apply IZR_le; lia). unfold u. lra.
Qed.
Lemma canon_top m e : canon m e -> (e <= 971)%Z -> num (2 ^ 53 - 4) 971 <= num m e -> e = 971%Z /\ (2 ^ 53 - 4 <= m)%Z.
Proof.
  intros (Hm & He & _) H971 H. unfold num in H. assert (P := bpow2_pos e).
  assert (M : 0 <= IZR m <= IZR (2 ^ 53) - 1) by (rewrite <- minus_IZR; split; apply IZR_le; lia). change (IZR (2 ^ 53 - 4)) with 9007199254740988 in H. change (IZR (2 ^ 53)) with 9007199254740992 in M.
  assert (e = 971)%Z as ->.
  { destruct (Z.eq_dec e 971) as [|N]; [assumption|exfalso]. assert (bpow radix2 e <= bpow radix2 970) by (apply bpow_le; lia). change 971%Z with (1 + 970)%Z in H. rewrite bpow_plus in H. change (bpow radix2 1) with 2 in H.
    assert (P2 := bpow2_pos 970). nra. }
  split; [reflexivity|]. apply le_IZR. change (IZR (2 ^ 53 - 4)) with 9007199254740988. apply Rmult_le_reg_r with (bpow radix2 971); assumption.
Qed.
Lemma top_split : bpow radix2 1024 = 9007199254740992 * bpow radix2 971.
Proof. exact (bpow_plus radix2 53 971). Qed.
Lemma top_num : num (2 ^ 53 - 4) 971 = 9007199254740988 * bpow radix2 971.
Proof. unfold num. f_equal. Qed.
Lemma none_top m e V : canon m e -> (e <= 971)%Z -> nearest V = num m e -> bpow radix2 1024 <= (1 + 4 * u) * V -> e = 971%Z /\ (2 ^ 53 - 4 <= m)%Z.
Proof.
  intros Hc He Hv S. apply (canon_top Hc He).
  rewrite <- Hv. rewrite <- (nearest_id (r := num (2 ^ 53 - 4) 971)) by exact (@num_F (2 ^ 53 - 4) 971 ltac:(simpl; lia) ltac:(lia)). apply nearest_le.
  rewrite top_num. rewrite top_split in S. assert (P := bpow2_pos 971). unfold u in S. lra.
Qed.
Lemma some_near x V r : 0 <= V -> nearest V = x -> Rabs (r - V) <= 7 * u * V + bpow radix2 (-1074) -> Rabs (r - x) <= 9 * u * x + 2 * bpow radix2 (-1074).
Proof.
  intros HV Hv S3. assert (N := nearest_err HV). rewrite Hv in N. rewrite eta_2 in *. assert (EP := eta_pos). apply Rabs_le_inv in S3, N. unfold u in *. apply Rabs_le. lra.
Qed.
Lemma reads_some m e : canon m e -> (e <= 971)%Z -> exists r, reads m e r /\ 0 <= r /\ Rabs (r - num m e) <= 9 * u * num m e + 2 * bpow radix2 (-1074).
Proof.
  intros Hc He. destruct (printed Hc He) as (c & k & n & c' & k' & o & Es & Hn & Hr & Hk & Hv & _ & _ & _ & Hd & Hc' & Ho & Ht).
  assert (S := reads_parts Hc' Ho). rewrite Hd in S. assert (HV : 0 <= decimal c k) by (rewrite <- Hd; apply decimal_nonneg; lia).
  assert (Et : text m e = layout c k) by (unfold text; rewrite Es; reflexivity). clear Es. unfold reads. rewrite Et. destruct o as [f|].
  - destruct S as (r & S1 & S2 & S3). exists r. split; [intros minus; exists f; split; [destruct (Ht minus) as (_ & _ & ->); destruct minus; reflexivity|exact S1]|]. split; [exact S2|]. eapply some_near; [exact HV|exact Hv|exact S3].
  - exfalso. destruct (none_top Hc He Hv S) as [E9 Hm]. rewrite E9 in Et. assert (N := @near_max m (conj Hm (proj2 (proj1 Hc)))). destruct (Ht false) as (_ & _ & Ht'). rewrite Et in N. cbn [minus_text app option_map] in Ht'. rewrite Ht' in N. discriminate N.
Qed.

(** ** Short decimals are read exactly *)
Lemma pow10_exact K : (0 <= K <= 22)%Z -> nearest (IZR (10 ^ K)) = IZR (10 ^ K).
Proof.
  intros H. apply nearest_id. replace (IZR (10 ^ K)) with (num (5 ^ K) K).
  - apply num_F; [|lia]. assert (0 < 5 ^ K)%Z by (apply Z.pow_pos_nonneg; lia). assert (5 ^ K <= 5 ^ 22)%Z by (apply Z.pow_le_mono_r; lia). assert (5 ^ 22 < 2 ^ 53)%Z by reflexivity. lia.
  - unfold num. rewrite b2_Z, <- mult_IZR by lia. rewrite <- Z.pow_mul_l. reflexivity.
Qed.
Lemma int_exact c : (0 <= c <= 2 ^ 53)%Z -> nearest (IZR c) = IZR c.
Proof. intros H. apply nearest_id. replace (IZR c) with (num c 0) by (unfold num; simpl; ring). apply num_F; lia. Qed.
Lemma pos_eq f r r' : pos_num f r -> r = r' -> pos_num f r'.
Proof. now intros H <-. Qed.
Lemma short_exact c k o : (0 <= c <= 2 ^ 53)%Z -> (-22 <= k <= 22)%Z -> (o = from_parts c k \/ k = 0%Z /\ o = Some (f64_of_Z c)) -> exists f, o = Some f /\ pos_num f (nearest (decimal c k)).
Proof.
  intros Hc Hk Ho. assert (S : (0 <= c <= u64_max)%Z) by (unfold u64_max; lia). destruct Ho as [->|[-> ->]].
  - destruct (Z.le_gt_cases 0 k) as [H|H].
    + destruct (@parts_mul c k S ltac:(lia)) as [A _]. rewrite int_exact, pow10_exact in A by lia. unfold decimal. rewrite p10_Z by lia. apply A.
      apply Rle_lt_trans with (nearest (bpow radix2 200)); [apply nearest_le|rewrite nearest_id by (apply generic_format_bpow; unfold FLT_exp; lia); apply bpow_lt; lia].
      rewrite b2_Z, <- mult_IZR by lia. apply IZR_le. assert (10 ^ k <= 10 ^ 22)%Z by (apply Z.pow_le_mono_r; lia). assert (P := @pow10_pos k ltac:(lia)).
      assert (c * 10 ^ k <= 2 ^ 53 * 10 ^ 22)%Z by (apply Z.mul_le_mono_nonneg; lia). assert (2 ^ 53 * 10 ^ 22 <= 2 ^ 200)%Z by (vm_compute; discriminate). lia.
    + destruct (@parts_div c k S ltac:(lia)) as (f & -> & F). exists f. split; [reflexivity|]. rewrite int_exact, pow10_exact in F by lia. apply (pos_eq F). f_equal. unfold decimal.
      replace k with (- - k)%Z at 2 by lia. rewrite p10_opp, p10_Z by lia. reflexivity.
  - destruct (sig_num S) as [N1 _]. exists (f64_of_Z c). split; [reflexivity|]. rewrite decimal_0. exact N1.
Qed.

(** ** Powers of ten next to powers of two *)
Definition apart (K : Z) : bool := let L := Z.log2 (10 ^ K) in ((2 ^ 20 + 1) * 2 ^ L <=? 2 ^ 20 * 10 ^ K)%Z && (2 ^ 20 * 10 ^ K <? (2 ^ 20 - 1) * 2 ^ (L + 1))%Z.
Lemma apart_all K : (1 <= K <= 22)%Z -> apart K = true.
Proof.
  intros H. assert (E : forallb apart (map Z.of_nat (seq 1 22)) = true) by (vm_compute; reflexivity). rewrite forallb_forall in E. apply E.
  replace K with (Z.of_nat (Z.to_nat K)) by lia. apply in_map, in_seq. lia.
Qed.
Lemma wide K e : (1 <= K <= 22)%Z -> 1 - / 1048576 <= IZR (10 ^ K) * bpow radix2 e -> 1 + / 1048576 <= IZR (10 ^ K) * bpow radix2 e.
Proof.
  intros HK H. assert (A := apart_all HK). unfold apart in A. apply andb_true_iff in A as [A1 A2]. apply Z.leb_le in A1. apply Z.ltb_lt in A2. set (L := Z.log2 (10 ^ K)) in *.
  assert (L0 : (0 <= L)%Z) by apply Z.log2_nonneg. assert (P := @pow10_pos K ltac:(lia)).
  destruct (Z.le_gt_cases 0 e) as [He|He].
  - rewrite b2_Z, <- mult_IZR by exact He. assert (2 <= 10 ^ K * 2 ^ e)%Z; [|apply IZR_le in H0; lra]. assert (10 ^ 1 <= 10 ^ K)%Z by (apply Z.pow_le_mono_r; lia). assert (Q := @pow2_pos e ltac:(lia)). change (10 ^ 1)%Z with 10%Z in H0. nia.
  - set (i := (- e)%Z) in *. replace e with (- i)%Z in * by (unfold i; lia). rewrite bpow_opp, b2_Z in * by lia. assert (Q := @pow2_pos i ltac:(lia)). apply IZR_lt in Q.
    assert (H2 : (2 ^ 20 - 1) * IZR (2 ^ i) <= 2 ^ 20 * IZR (10 ^ K)).
    { apply (Rmult_le_compat_r (IZR (2 ^ i) * 1048576)) in H; [|lra]. replace (IZR (10 ^ K) * / IZR (2 ^ i) * (IZR (2 ^ i) * 1048576)) with (1048576 * IZR (10 ^ K)) in H by (field; lra). lra. }
    assert (H3 : ((2 ^ 20 + 1) * 2 ^ i <= 2 ^ 20 * 10 ^ K)%Z).
    { destruct (Z.le_gt_cases i L) as [G|G].
      - assert (2 ^ i <= 2 ^ L)%Z by (apply Z.pow_le_mono_r; lia). lia.
      - exfalso. assert (2 ^ (L + 1) <= 2 ^ i)%Z by (apply Z.pow_le_mono_r; lia). assert (2 ^ 20 * 10 ^ K < (2 ^ 20 - 1) * 2 ^ i)%Z by lia. apply IZR_lt in H1. rewrite !mult_IZR in H1. change (IZR (2 ^ 20)) with 1048576 in H1. change (IZR (2 ^ 20 - 1)) with 1048575 in H1. lra. }
    apply IZR_le in H3. rewrite !mult_IZR in H3. change (IZR (2 ^ 20)) with 1048576 in H3. change (IZR (2 ^ 20 + 1)) with 1048577 in H3.
    apply (Rmult_le_reg_r (IZR (2 ^ i) * 1048576)); [lra|]. replace (IZR (10 ^ K) * / IZR (2 ^ i) * (IZR (2 ^ i) * 1048576)) with (1048576 * IZR (10 ^ K)) by (field; lra). lra.
Qed.

(** ** Numbers from 2^-17 to 2^47 *)
Definition core (x : R) : Prop := bpow radix2 (-17) <= x <= bpow radix2 47.
(** [x] is printed with more than 53 bits of digits. *)
Definition loose (x : R) (n K D : Z) : Prop :=
  (1 <= K <= 22)%Z /\ (2 ^ 53 < D < 10 ^ n)%Z /\ (1 <= n <= 17)%Z /\ nearest (decimal D (- K)) = x /\ Rabs (IZR D - IZR (10 ^ K) * x) <= / 2 /\
  (forall c' k', (0 < c')%Z -> (c' * 10 < 10 ^ n)%Z -> nearest (decimal c' k') <> x).
Lemma F2 e : (-1074 <= e)%Z -> nearest (bpow radix2 e) = bpow radix2 e.
Proof. intros H. apply nearest_id, generic_format_bpow. unfold FLT_exp. lia. Qed.
Lemma nearest_lt_inv a b : nearest a < nearest b -> a < b.
Proof. intros H. destruct (Rlt_or_le a b) as [|G]; [assumption|]. apply nearest_le in G. lra. Qed.

Lemma core_low c k : (0 < c < 10 ^ 17)%Z -> core (nearest (decimal c k)) -> (-22 <= k)%Z.
Proof.
  intros Hc [H _]. destruct (Z.le_gt_cases (-22) k) as [|G]; [assumption|exfalso].
  assert (decimal c k <= bpow radix2 (-19)).
  { apply Rle_trans with (IZR (10 ^ 17) * powerRZ 10 (-23)).
    - unfold decimal. assert (IZR c <= IZR (10 ^ 17)) by (apply IZR_le; lia). assert (powerRZ 10 k <= powerRZ 10 (-23)) by (apply p10_le; lia). assert (0 <= IZR c) by (apply IZR_le; lia). assert (P := p10_pos k). apply Rmult_le_compat; lra.
    - change (-23)%Z with (- (23))%Z. rewrite p10_opp, p10_Z by lia. change (IZR (10 ^ 17)) with 100000000000000000. change (IZR (10 ^ 23)) with 100000000000000000000000. simpl. lra. }
  apply nearest_le in H0. rewrite F2 in H0 by lia. assert (bpow radix2 (-19) < bpow radix2 (-17)) by (apply bpow_lt; lia). lra.
Qed.
Lemma core_int c k : (0 < c)%Z -> (0 <= k)%Z -> core (nearest (decimal c k)) -> (c * 10 ^ k <= 2 ^ 47)%Z.
Proof.
  intros Hc Hk [_ H]. assert (E : decimal c k = IZR (c * 10 ^ k)) by (unfold decimal; rewrite p10_Z, mult_IZR by exact Hk; reflexivity). rewrite E in H. assert (P := @pow10_pos k Hk).
  assert (c * 10 ^ k <= 2 ^ 53)%Z.
  { apply le_IZR. change (IZR (2 ^ 53)) with (bpow radix2 53). apply Rlt_le, nearest_lt_inv. rewrite F2 by lia. eapply Rle_lt_trans; [exact H|]. apply bpow_lt. lia. }
  rewrite int_exact in H by nia. change (bpow radix2 47) with (IZR (2 ^ 47)) in H. now apply le_IZR.
Qed.

Lemma pow2_short j : (-17 <= j <= 47)%Z -> exists c k, (0 < c < 10 ^ 15)%Z /\ decimal c k = bpow radix2 j.
Proof.
  intros H. destruct (Z.le_gt_cases 0 j) as [G|G].
  - exists (2 ^ j)%Z, 0%Z. split; [|rewrite decimal_0, b2_Z by exact G; reflexivity]. assert (P := @pow2_pos j G). assert (2 ^ j <= 2 ^ 47)%Z by (apply Z.pow_le_mono_r; lia). assert (2 ^ 47 < 10 ^ 15)%Z by reflexivity. lia.
  - exists (5 ^ (- j))%Z, j. set (i := (- j)%Z). split.
    + assert (0 < 5 ^ i)%Z by (apply Z.pow_pos_nonneg; lia). assert (5 ^ i <= 5 ^ 17)%Z by (apply Z.pow_le_mono_r; lia). assert (5 ^ 17 < 10 ^ 15)%Z by reflexivity. lia.
    + unfold decimal. replace j with (- i)%Z by (unfold i; lia). rewrite p10_opp, p10_Z, bpow_opp, b2_Z by lia. replace (10 ^ i)%Z with (5 ^ i * 2 ^ i)%Z by (rewrite <- Z.pow_mul_l; reflexivity).
      assert (0 < IZR (5 ^ i)) by (apply IZR_lt, Z.pow_pos_nonneg; lia). assert (0 < IZR (2 ^ i)) by (apply IZR_lt, pow2_pos; lia). rewrite mult_IZR. field. lra.
Qed.
Lemma core_exp e m : canon m e -> core (num m e) -> (-69 <= e <= -5)%Z /\ (2 ^ 52 <= m)%Z.
Proof.
  intros (Hm & He & Hc) [H1 H2]. assert (M : 0 < IZR m < IZR (2 ^ 53)) by (split; apply IZR_lt; lia). assert (P := bpow2_pos e). unfold num in *. change (IZR (2 ^ 53)) with (bpow radix2 53) in M.
  assert (L : (-70 < e)%Z).
  { assert (-17 < 53 + e)%Z; [|lia]. apply (lt_bpow radix2). eapply Rle_lt_trans; [exact H1|]. rewrite bpow_plus. apply Rmult_lt_compat_r; lra. }
  destruct Hc as [Hc|Hc]; [|lia]. split; [|exact Hc]. split; [lia|]. assert (e < -4)%Z; [|lia]. apply (lt_bpow radix2).
  assert (M2 : bpow radix2 52 <= IZR m) by (change (bpow radix2 52) with (IZR (2 ^ 52)); apply IZR_le; exact Hc).
  apply Rmult_lt_reg_l with (bpow radix2 52); [apply bpow2_pos|]. rewrite <- !bpow_plus. apply Rle_lt_trans with (bpow radix2 47); [|apply bpow_lt; lia]. eapply Rle_trans; [|exact H2]. rewrite bpow_plus. apply Rmult_le_compat_r; lra.
Qed.

Lemma even_limits m e : canon m e -> halved m e = false -> lower m e = num m e - bpow radix2 e / 2 /\ upper m e = num m e + bpow radix2 e / 2.
Proof.
  intros Hc Hh. unfold lower, upper. rewrite Hh. rewrite <- (num_4 m e). unfold num. rewrite minus_IZR, plus_IZR. replace (bpow radix2 e) with (4 * bpow radix2 (e - 2)); [split; field|].
  replace e with (2 + (e - 2))%Z at 2 by ring. rewrite bpow_plus. reflexivity.
Qed.
Lemma inside m e v w : canon m e -> halved m e = false -> nearest w = num m e -> Rabs (v - num m e) < Rabs (w - num m e) -> nearest v = num m e.
Proof.
  intros Hc Hh Hw Hv. destruct (even_limits Hc Hh) as [E1 E2]. apply (nearest_iff w Hc) in Hw. apply (nearest_iff v Hc). rewrite E1, E2 in *.
  assert (Rabs (w - num m e) <= bpow radix2 e / 2) by (apply Rabs_le; destruct (Z.even m); lra). assert (L := Rabs_lt_inv _ _ (Rlt_le_trans _ _ _ Hv H)). destruct (Z.even m); lra.
Qed.
Lemma inside_half m e v : canon m e -> halved m e = false -> Rabs (v - num m e) < bpow radix2 e / 2 -> nearest v = num m e.
Proof.
  intros Hc Hh Hv. destruct (even_limits Hc Hh) as [E1 E2]. apply (nearest_iff v Hc). rewrite E1, E2. apply Rabs_lt_inv in Hv. destruct (Z.even m); lra.
Qed.
Lemma long_digits D n : (2 ^ 53 < D < 10 ^ n)%Z -> (16 <= n)%Z.
Proof. intros H. destruct (Z.le_gt_cases 16 n) as [|G]; [assumption|]. exfalso. destruct (Z.lt_ge_cases n 0) as [C|C]; [rewrite (Z.pow_neg_r 10 n) in H by exact C; lia|]. assert (10 ^ n <= 10 ^ 15)%Z by (apply Z.pow_le_mono_r; lia). assert (10 ^ 15 < 2 ^ 53)%Z by reflexivity. lia. Qed.
Lemma not_pow2 m e D n : canon m e -> core (num m e) -> (2 ^ 53 < D < 10 ^ n)%Z -> (forall c' k', (0 < c')%Z -> (c' * 10 < 10 ^ n)%Z -> nearest (decimal c' k') <> num m e) -> m <> (2 ^ 52)%Z.
Proof.
  intros Hc Hr HD Hs ->. destruct (core_exp Hc Hr) as [He _]. assert (E : num (2 ^ 52) e = bpow radix2 (e + 52)) by (unfold num; rewrite bpow_plus, Rmult_comm; reflexivity).
  rewrite E in *. destruct (@pow2_short (e + 52)) as (c & k & H1 & H2).
  { destruct Hr as [A B]. apply le_bpow in A, B. lia. }
  apply (Hs c k); [lia| |rewrite H2; apply F2; lia]. apply long_digits in HD. assert (10 ^ 16 <= 10 ^ n)%Z by (apply Z.pow_le_mono_r; lia). change (10 ^ 16)%Z with (10 ^ 15 * 10)%Z in H. lia.
Qed.
Lemma decimal_P D K : (0 <= K)%Z -> decimal D (- K) = IZR D / IZR (10 ^ K).
Proof. intros H. unfold decimal. rewrite p10_opp, p10_Z by exact H. reflexivity. Qed.
Lemma scaled D K x : (0 <= K)%Z -> Rabs (decimal D (- K) - x) = Rabs (IZR D - IZR (10 ^ K) * x) / IZR (10 ^ K).
Proof.
  intros H. rewrite decimal_P by exact H. assert (P : 0 < IZR (10 ^ K)) by (apply IZR_lt, pow10_pos; exact H). assert (I : 0 < / IZR (10 ^ K)) by (now apply Rinv_0_lt_compat). replace (IZR D / IZR (10 ^ K) - x) with ((IZR D - IZR (10 ^ K) * x) * / IZR (10 ^ K)) by (field; lra). rewrite Rabs_mult, (Rabs_pos_eq (/ IZR (10 ^ K))) by lra. reflexivity.
Qed.
Lemma ten_n n K : (0 <= n)%Z -> decimal (10 ^ n) (- K) = decimal 1 (n - K).
Proof. intros H. replace (10 ^ n)%Z with (1 * 10 ^ n)%Z by lia. rewrite decimal_shift by exact H. f_equal. lia. Qed.
Lemma half_away m e D K n : canon m e -> core (num m e) -> (1 <= K <= 22)%Z -> (2 ^ 53 < D < 10 ^ n)%Z -> nearest (decimal D (- K)) = num m e ->
  (forall c' k', (0 < c')%Z -> (c' * 10 < 10 ^ n)%Z -> nearest (decimal c' k') <> num m e) ->
  (forall c' k', (0 < c' < 10 ^ n)%Z -> nearest (decimal c' k') = num m e -> Rabs (decimal D (- K) - num m e) <= Rabs (decimal c' k' - num m e)) ->
  Rabs (IZR D - IZR (10 ^ K) * num m e) <= / 2.
Proof.
  intros Hc Hr HK HD Hv Hs Hx. assert (Hm := @not_pow2 m e D n Hc Hr HD Hs). assert (Hn := @long_digits D n HD).
  assert (Hh : halved m e = false) by (unfold halved; destruct (Z.eqb_spec m (2 ^ 52)); [contradiction|reflexivity]).
  destruct (Rle_or_lt (Rabs (IZR D - IZR (10 ^ K) * num m e)) (/ 2)) as [|Hf]; [assumption|exfalso].
  set (x := num m e) in *. set (P := IZR (10 ^ K)) in *. assert (HP : 0 < P) by (apply IZR_lt, pow10_pos; lia). set (N := ZnearestE (P * x)).
  assert (HN : Rabs (IZR N - P * x) <= / 2) by (rewrite Rabs_minus_sym; apply Znearest_half).
  assert (Hcl : forall c, Rabs (IZR c - P * x) < Rabs (IZR D - P * x) -> nearest (decimal c (- K)) = x).
  { intros c Hlt. apply (inside (decimal c (- K)) Hc Hh Hv). fold x. rewrite !scaled by lia. fold P. apply Rmult_lt_compat_r; [now apply Rinv_0_lt_compat|exact Hlt]. }
  assert (T : nearest (decimal (10 ^ n) (- K)) <> x). { rewrite ten_n by lia. apply Hs; [lia|]. assert (10 ^ 16 <= 10 ^ n)%Z by (apply Z.pow_le_mono_r; lia). lia. }
  assert (HNx : nearest (decimal N (- K)) = x) by (apply Hcl; lra).
  assert (D1 : IZR (2 ^ 53) < IZR D) by (apply IZR_lt; lia). change (IZR (2 ^ 53)) with 9007199254740992 in D1.
  assert (N0 : (0 < N)%Z).
  { apply lt_IZR. apply Rabs_le_inv in HN. assert (1 <= P * x); [|lra]. assert (decimal 1 (- K) <= x); [|rewrite decimal_P in H by lia; fold P in H; apply (Rmult_le_compat_r P) in H; [|lra]; replace (1 / P * P) with 1 in H by (field; lra); lra].
    rewrite <- Hv. apply Rnot_lt_le. intros C. assert (E := @nearest_err (decimal D (- K)) ltac:(apply decimal_nonneg; lia)). rewrite (decimal_P D), (decimal_P 1) in C by lia. rewrite (decimal_P D) in E by lia. fold P in C, E.
    assert (IP : 0 < / P) by (now apply Rinv_0_lt_compat). apply Rabs_le_inv in E. assert (E3 : eta <= / P / 4).
    { apply Rle_trans with (bpow radix2 (-100)); [apply bpow_le; lia|]. apply Rmult_le_reg_r with (P * 4); [lra|]. replace (/ P / 4 * (P * 4)) with 1 by (field; lra).
      assert (P <= 10000000000000000000000) by (unfold P; apply (IZR_le _ (10 ^ 22)), Z.pow_le_mono_r; lia). assert (PP := bpow2_pos (-100)). apply Rle_trans with (bpow radix2 (-100) * (10000000000000000000000 * 4)); [apply Rmult_le_compat_l; lra|]. simpl. lra. }
    assert (9007199254740992 * / P <= IZR D / P) by (apply Rmult_le_compat_r; lra). unfold u in E. unfold Rdiv in *. lra. }
  destruct (Z.lt_ge_cases N (10 ^ n)) as [G|G].
  - specialize (Hx N (- K)%Z (conj N0 G) HNx). rewrite !scaled in Hx by lia. fold P in Hx. apply (Rmult_le_compat_r P) in Hx; [|lra]. unfold Rdiv in Hx. rewrite !Rmult_assoc, Rinv_l in Hx by lra. lra.
  - destruct (Z.eq_dec N (10 ^ n)) as [Q|Q]; [rewrite Q in HNx; contradiction|]. apply T, Hcl. assert (B1 : IZR N >= IZR (10 ^ n) + 1) by (rewrite <- plus_IZR; apply Rle_ge, IZR_le; lia).
    assert (B2 : IZR D + 1 <= IZR (10 ^ n)) by (rewrite <- plus_IZR; apply IZR_le; lia). apply Rabs_le_inv in HN.
    rewrite (Rabs_left1 (IZR (10 ^ n) - P * x)), (Rabs_left1 (IZR D - P * x)) by lra. lra.
Qed.
Lemma core_top m e : canon m e -> core (num m e) -> (e <= 971)%Z.
Proof. intros Hc Hr. destruct (core_exp Hc Hr) as [H _]. lia. Qed.
Lemma core_reads m e : canon m e -> core (num m e) -> exists r, reads m e r /\
  (r = num m e \/ exists n K D, loose (num m e) n K D /\ m <> (2 ^ 52)%Z /\ r = twice D (IZR (10 ^ K))).
Proof.
  intros Hc Hr. destruct (printed Hc (core_top Hc Hr)) as (c & k & n & c' & k' & o & Es & Hn & Hd & Hk & Hv & Hs & Hx & Hp & Hsame & Hc' & Ho & Ht).
  assert (Et : text m e = layout c k) by (unfold text; rewrite Es; reflexivity). clear Es. unfold reads. rewrite Et.
  assert (Hgo : forall f r, o = Some f -> pos_num f r -> forall minus : bool, exists f, read_num (minus_text minus ++ layout c k) = Some (if minus then fneg f else f) /\ pos_num f r).
  { intros f r Ef Hf minus. exists f. split; [|exact Hf]. destruct (Ht minus) as (_ & _ & ->). rewrite Ef. destruct minus; reflexivity. }
  assert (P1 := @pow10_pos (n - 1) ltac:(lia)). assert (T17 : (10 ^ n <= 10 ^ 17)%Z) by (apply Z.pow_le_mono_r; lia).
  assert (Hr2 := Hr). rewrite <- Hv in Hr2. assert (K22 := @core_low c k ltac:(lia) Hr2).
  assert (Hexact : (c' <= 2 ^ 53)%Z -> (-22 <= k' <= 22)%Z -> exists r, (forall minus : bool, exists f, read_num (minus_text minus ++ layout c k) = Some (if minus then fneg f else f) /\ pos_num f r) /\
    (r = num m e \/ exists n K D, loose (num m e) n K D /\ m <> (2 ^ 52)%Z /\ r = twice D (IZR (10 ^ K)))).
  { intros A B. destruct (@short_exact c' k' o ltac:(lia) B Ho) as (f & F1 & F2). rewrite Hsame, Hv in F2. exists (num m e). split; [exact (Hgo f _ F1 F2)|now left]. }
  destruct (Z.le_gt_cases 0 k) as [Gk|Gk].
  - assert (I := @core_int c k ltac:(lia) Gk Hr2). assert (Q := @pow10_pos k Gk). apply Hexact.
    + destruct Hp as [[-> _]|(_ & _ & -> & _)]; [nia|]. rewrite Z.pow_add_r by lia. change (10 ^ 1)%Z with 10%Z. lia.
    + destruct Hp as [[_ ->]|(_ & _ & _ & ->)]; [|lia]. split; [lia|]. destruct (Z.le_gt_cases k 22) as [|G]; [assumption|exfalso]. assert (10 ^ 23 <= 10 ^ k)%Z by (apply Z.pow_le_mono_r; lia). assert (2 ^ 47 < 10 ^ 23)%Z by reflexivity. nia.
  - destruct Hp as [[-> ->]|(X & _)]; [|lia]. destruct (Z.le_gt_cases c (2 ^ 53)) as [G|G]; [apply Hexact; lia|].
    destruct Ho as [Ho|[X _]]; [|lia]. destruct (@parts_div c k ltac:(assert (10 ^ 17 < 2 ^ 64)%Z by reflexivity; unfold u64_max; lia) ltac:(lia)) as (f & F1 & F2). rewrite F1 in Ho.
    set (K := (- k)%Z) in *. replace k with (- K)%Z in Hv, Hx by (unfold K; lia). assert (HK : (1 <= K <= 22)%Z) by lia.
    exists (twice c (IZR (10 ^ K))). split; [apply (Hgo f _ Ho); apply (pos_eq F2); unfold twice; rewrite pow10_exact by lia; reflexivity|].
    right. exists n, K, c. assert (HD : (2 ^ 53 < c < 10 ^ n)%Z) by lia. split; [|split; [exact (@not_pow2 m e c n Hc Hr HD Hs)|reflexivity]].
    split; [exact HK|]. split; [exact HD|]. split; [lia|]. split; [exact Hv|]. split; [|exact Hs]. exact (@half_away m e c K n Hc Hr HK HD Hv Hs Hx).
Qed.
Lemma reads_fun m e r r' : reads m e r -> reads m e r' -> r = r'.
Proof. intros H H'. destruct (H false) as (f & F1 & _ & _ & <-). destruct (H' false) as (g & G1 & _ & _ & <-). rewrite F1 in G1. now injection G1 as ->. Qed.
Lemma canon_inj m e m' e' : canon m e -> canon m' e' -> num m e = num m' e' -> m = m' /\ e = e'.
Proof.
  intros H H' E. assert (P := bpow2_pos e). assert (P' := bpow2_pos e'). assert (Ee : e = e').
  { rewrite <- (@canon_cexp m e H (num m e)) by (unfold num; rewrite plus_IZR; lra). rewrite E. apply (@canon_cexp m' e' H'). unfold num. rewrite plus_IZR. lra. }
  subst e'. split; [|reflexivity]. unfold num in E. apply eq_IZR. apply Rmult_eq_reg_r with (bpow radix2 e); lra.
Qed.

(** [x] is printed, and the text read as [r]. *)
Definition result (x r : R) : Prop := exists m e, canon m e /\ x = num m e /\ reads m e r.
Definition exactly_or_loose (x r : R) : Prop := r = x \/ exists m e n K D, canon m e /\ m <> (2 ^ 52)%Z /\ x = num m e /\ loose x n K D /\ r = twice D (IZR (10 ^ K)).
Lemma result_cases x r : result x r -> core x -> F64 x /\ exactly_or_loose x r.
Proof.
  intros (m & e & Hc & -> & Hr) Hx. split; [now apply canon_F|]. destruct (core_reads Hc Hx) as (r' & H1 & H2). rewrite (reads_fun Hr H1). destruct H2 as [->|(n & K & D & L & Hm & ->)]; [now left|].
  right. exists m, e, n, K, D. auto.
Qed.
Lemma succ_rel m e : canon m e -> (2 ^ 52 <= m)%Z -> (1 - / 2251799813685248) * succ radix2 fexp64 (num m e) <= num m e.
Proof.
  intros Hc Hm. rewrite (canon_succ Hc), num_add. unfold num. assert (P := bpow2_pos e). apply IZR_le in Hm. change (IZR (2 ^ 52)) with 4503599627370496 in Hm.
  assert (4503599627370496 * bpow radix2 e <= IZR m * bpow radix2 e) by (apply Rmult_le_compat_r; lra). change (IZR 1) with 1. lra.
Qed.
Lemma K_le m e n K D y n2 K2 D2 : canon m e -> core (num m e) -> m <> (2 ^ 52)%Z -> loose (num m e) n K D -> loose y n2 K2 D2 -> (1 - / 2251799813685248) * y <= num m e -> (K <= K2)%Z.
Proof.
  intros Hc Hr Hm (LK & LD & Ln & _ & LH & LS) (MK & MD & _ & _ & MH & _) Hy. destruct (Z.le_gt_cases K K2) as [|G]; [assumption|exfalso].
  assert (Hh : halved m e = false) by (unfold halved; destruct (Z.eqb_spec m (2 ^ 52)); [contradiction|reflexivity]).
  set (x := num m e) in *. set (P := IZR (10 ^ K)) in *. set (P2 := IZR (10 ^ K2)) in *. assert (HP2 : 0 < P2) by (apply IZR_lt, pow10_pos; lia).
  assert (HP : 10 * P2 <= P) by (unfold P, P2; rewrite <- mult_IZR; apply IZR_le; replace (10 * 10 ^ K2)%Z with (10 ^ (1 + K2))%Z by (rewrite Z.pow_add_r by lia; reflexivity); apply Z.pow_le_mono_r; lia).
  assert (D2' : IZR (2 ^ 53 + 1) <= IZR D2) by (apply IZR_le; lia). change (IZR (2 ^ 53 + 1)) with 9007199254740993 in D2'. apply Rabs_le_inv in MH, LH.
  assert (X : 9007199254740988 <= P2 * x).
  { apply (Rmult_le_compat_l P2) in Hy; [|lra]. lra. }
  assert (Pe := bpow2_pos e). assert (Wd : 1 + / 1048576 <= P2 * bpow radix2 e).
  { apply wide; [exact MK|]. fold P2. unfold x, num in X. assert (Mm : IZR m <= 9007199254740992) by (apply (IZR_le _ (2 ^ 53)); destruct Hc as (A & _); lia).
    assert (P2 * (IZR m * bpow radix2 e) <= 9007199254740992 * (P2 * bpow radix2 e)); [|lra]. replace (P2 * (IZR m * bpow radix2 e)) with (IZR m * (P2 * bpow radix2 e)) by ring. apply Rmult_le_compat_r; [apply Rmult_le_pos; lra|exact Mm]. }
  set (N := ZnearestE (P2 * x)). assert (HN : Rabs (IZR N - P2 * x) <= / 2) by (rewrite Rabs_minus_sym; apply Znearest_half).
  assert (HNx : nearest (decimal N (- K2)) = x).
  { apply (inside_half (decimal N (- K2)) Hc Hh). fold x. rewrite scaled by lia. fold P2. apply Rmult_lt_reg_r with P2; [exact HP2|]. unfold Rdiv at 1. rewrite Rmult_assoc, Rinv_l by lra. lra. }
  apply Rabs_le_inv in HN. assert (N0 : (0 < N)%Z) by (apply lt_IZR; lra). assert (x0 : 0 < x) by (apply num_pos; apply Hc).
  assert (N10 : IZR N * 10 <= IZR D + 6).
  { assert (10 * P2 * x <= P * x) by (apply Rmult_le_compat_r; [lra|exact HP]). lra. }
  assert (NZ : (N * 10 <= D + 6)%Z) by (apply le_IZR; rewrite mult_IZR, plus_IZR; exact N10).
  assert (T : (10 ^ n = 10 * 10 ^ (n - 1))%Z) by (rewrite <- Z.pow_succ_r by lia; f_equal; lia). assert (L16 := @long_digits D n LD).
  destruct (Z.lt_ge_cases (N * 10) (10 ^ n)) as [C|C]; [exact (LS N (- K2)%Z N0 C HNx)|].
  assert (EN : N = (10 ^ (n - 1))%Z) by lia. rewrite EN, ten_n in HNx by lia. apply (LS 1%Z (n - 1 - K2)%Z); [lia| |exact HNx]. assert (10 ^ 16 <= 10 ^ n)%Z by (apply Z.pow_le_mono_r; lia). lia.
Qed.

Lemma result_near x r : result x r -> core x -> pred radix2 fexp64 x <= r <= succ radix2 fexp64 x.
Proof.
  intros Hr Hx. destruct (result_cases Hr Hx) as [Hf [->|(m & e & n & K & D & Hc & Hm & -> & (LK & LD & _ & _ & LH & _) & ->)]].
  - split; [apply pred_le_id|apply succ_ge_id].
  - destruct (core_exp Hc Hx) as [He Hm2]. apply twice_near; [lia|apply IZR_lt, pow10_pos; lia|destruct Hc as (A & _); lia|lia|exact LH].
Qed.
Lemma twice_le D D2 P : 0 < P -> (D <= D2)%Z -> twice D P <= twice D2 P.
Proof. intros HP H. unfold twice. apply nearest_le, Rmult_le_compat_r; [left; now apply Rinv_0_lt_compat|]. apply nearest_le, IZR_le. exact H. Qed.
Lemma loose_wide m e n K D : canon m e -> loose (num m e) n K D -> 1 + / 1048576 <= IZR (10 ^ K) * bpow radix2 e.
Proof.
  intros Hc (LK & LD & _ & _ & LH & _). apply wide; [exact LK|]. apply Rabs_le_inv in LH. assert (Pe := bpow2_pos e). set (P := IZR (10 ^ K)) in *. assert (HP : 0 < P) by (apply IZR_lt, pow10_pos; lia).
  assert (D' : IZR (2 ^ 53 + 1) <= IZR D) by (apply IZR_le; lia). change (IZR (2 ^ 53 + 1)) with 9007199254740993 in D'. unfold num in LH.
  assert (Mm : IZR m <= 9007199254740992) by (apply (IZR_le _ (2 ^ 53)); destruct Hc as (A & _); lia).
  assert (P * (IZR m * bpow radix2 e) <= 9007199254740992 * (P * bpow radix2 e)); [|lra]. replace (P * (IZR m * bpow radix2 e)) with (IZR m * (P * bpow radix2 e)) by ring. apply Rmult_le_compat_r; [apply Rmult_le_pos; lra|exact Mm].
Qed.
Lemma result_le x r y s : result x r -> result y s -> core x -> core y -> x <= y -> r <= s.
Proof.
  intros Hr Hs Hx Hy Hle. destruct (Rle_lt_or_eq_dec _ _ Hle) as [Hlt|E].
  - destruct (result_cases Hr Hx) as [Fx Cx]. destruct (result_cases Hs Hy) as [Fy Cy]. assert (Nx := result_near Hr Hx). assert (Ny := result_near Hs Hy).
    assert (A1 : succ radix2 fexp64 x <= y) by (apply succ_le_lt; auto; exact fexp64_valid). assert (A2 : x <= pred radix2 fexp64 y) by (apply pred_ge_gt; auto; exact fexp64_valid).
    destruct Cx as [->|(m & e & n & K & D & Hc & Hm & -> & L & ->)]; [lra|]. destruct Cy as [->|(m2 & e2 & n2 & K2 & D2 & Hc2 & Hm2 & -> & L2 & ->)]; [lra|].
    destruct (Rle_lt_or_eq_dec _ _ A1) as [B|B].
    + assert (succ radix2 fexp64 (num m e) <= pred radix2 fexp64 (num m2 e2)); [|lra]. apply pred_ge_gt; [exact fexp64_valid|apply generic_format_succ; [exact fexp64_valid|exact Fx]|exact Fy|exact B].
    + destruct (core_exp Hc Hx) as [_ M52].
      assert (E1 := K_le Hc Hx Hm L L2 ltac:(rewrite <- B; now apply succ_rel)).
      assert (E2 := K_le Hc2 Hy Hm2 L2 L ltac:(assert (0 < num m e) by (apply num_pos, Hc); lra)).
      assert (K2 = K) by lia. subst K2. apply twice_le; [apply IZR_lt, pow10_pos; destruct L; lia|]. assert (W := loose_wide Hc L).
      destruct L as (_ & _ & _ & _ & LH & _). destruct L2 as (_ & _ & _ & _ & LH2 & _). apply Rabs_le_inv in LH, LH2. rewrite <- B, (canon_succ Hc), num_add in LH2. apply le_IZR. change (IZR 1) with 1 in LH2. lra.
  - destruct Hr as (m & e & Hc & -> & Hr). destruct Hs as (m2 & e2 & Hc2 & -> & Hs). destruct (canon_inj Hc Hc2 E) as [<- <-]. rewrite (reads_fun Hr Hs). lra.
Qed.
Lemma pow2_result j s : (-17 <= j <= 47)%Z -> result (bpow radix2 j) s -> s = bpow radix2 j.
Proof.
  intros Hj Hs. assert (Hx : core (bpow radix2 j)) by (split; apply bpow_le; lia). destruct (result_cases Hs Hx) as [_ [->|(m & e & n & K & D & Hc & Hm & E & _)]]; [reflexivity|]. exfalso. apply Hm.
  assert (E2 : bpow radix2 j = num (2 ^ 52) (j - 52)) by (unfold num; change (IZR (2 ^ 52)) with (bpow radix2 52); rewrite <- bpow_plus; f_equal; lia). rewrite E2 in E. apply (@canon_inj m e (2 ^ 52) (j - 52)); [exact Hc| |now symmetry]. split; [lia|]. split; [lia|left; lia].
Qed.
Lemma pow2_has j : (-17 <= j <= 47)%Z -> result (bpow radix2 j) (bpow radix2 j).
Proof.
  intros Hj. assert (Hx : core (bpow radix2 j)) by (split; apply bpow_le; lia). assert (E2 : bpow radix2 j = num (2 ^ 52) (j - 52)) by (unfold num; change (IZR (2 ^ 52)) with (bpow radix2 52); rewrite <- bpow_plus; f_equal; lia).
  assert (Hc : canon (2 ^ 52) (j - 52)) by (split; [lia|]; split; [lia|left; lia]). rewrite E2 in Hx. destruct (core_reads Hc Hx) as (r & H1 & _).
  assert (Hr : result (bpow radix2 j) r) by (exists (2 ^ 52)%Z, (j - 52)%Z; auto). rewrite <- (pow2_result Hj Hr) at 2. exact Hr.
Qed.
Lemma result_core x r : result x r -> core x -> core r.
Proof.
  intros Hr Hx. split.
  - apply (@result_le (bpow radix2 (-17)) _ x r); [apply pow2_has; lia|exact Hr|split; apply bpow_le; lia|exact Hx|apply Hx].
  - apply (@result_le x r (bpow radix2 47) _); [exact Hr|apply pow2_has; lia|exact Hx|split; apply bpow_le; lia|apply Hx].
Qed.
Lemma result_once x r s : result x r -> result r s -> core x -> s = r.
Proof.
  intros Hr Hs Hx. assert (Hy := result_core Hr Hx). assert (Nx := result_near Hr Hx). destruct (Req_dec x r) as [E|N].
  - subst r. destruct Hr as (m & e & Hc & -> & Hr). destruct Hs as (m2 & e2 & Hc2 & E2 & Hs). destruct (canon_inj Hc Hc2 E2) as [<- <-]. now apply (reads_fun Hs Hr).
  - destruct (result_cases Hr Hx) as [Fx Cx]. destruct (result_cases Hs Hy) as [Fy Cy]. destruct Cx as [->|(m & e & n & K & D & Hc & Hm & Ex & L & Er)]; [congruence|]. destruct Cy as [->|(m2 & e2 & n2 & K2 & D2 & Hc2 & Hm2 & Ey & L2 & ->)]; [reflexivity|].
    destruct (core_exp Hc ltac:(rewrite <- Ex; exact Hx)) as [_ M52]. destruct (core_exp Hc2 ltac:(rewrite <- Ey; exact Hy)) as [He2 M522].
    assert (HK : K2 = K).
    { assert (S1 : r <= succ radix2 fexp64 x) by apply Nx. assert (S2 : x <= succ radix2 fexp64 r).
      { destruct (Rle_lt_dec x (succ radix2 fexp64 r)) as [|G]; [assumption|]. assert (succ radix2 fexp64 r <= pred radix2 fexp64 x) by (apply pred_ge_gt; [exact fexp64_valid|apply generic_format_succ; [exact fexp64_valid|exact Fy]|exact Fx|exact G]).
        assert (r < succ radix2 fexp64 r) by (apply succ_gt_id; assert (0 < r) by (eapply Rlt_le_trans; [apply bpow_gt_0|apply Hy]); lra). lra. }
      rewrite Ex in L. rewrite Ey in L2. assert (X1 := succ_rel Hc M52). assert (X2 := succ_rel Hc2 M522). rewrite <- Ex in X1. rewrite <- Ey in X2.
      apply Z.le_antisymm.
      - apply (K_le Hc2 ltac:(rewrite <- Ey; exact Hy) Hm2 L2 L). rewrite <- Ex, <- Ey. lra.
      - apply (K_le Hc ltac:(rewrite <- Ex; exact Hx) Hm L L2). rewrite <- Ex, <- Ey. lra. }
    subst K2. destruct L as (LK & LD & _ & _ & LH & _). destruct L2 as (_ & LD2 & _ & _ & LH2 & _). rewrite Ey in *. symmetry.
    symmetry. apply (@twice_once D D2 K x m2 e2); [lia|lia|lia|destruct Hc2 as (A & _); lia|lia|exact Fx|exact N|exact LH|exact LH2|now symmetry].
Qed.
