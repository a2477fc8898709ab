(** The digits printed for a number are the fewest that are rounded to it. *)
From Coq Require Import ZArith Reals Bool Lia Lra.
From Flocq Require Import Core.
From Verif Require Import Base F64 SpecNum JsonNum RoundProofs.
Set Implicit Arguments.
Local Open Scope R_scope.

Lemma p10_pos k : 0 < powerRZ 10 k.
Proof. apply powerRZ_lt. lra. Qed.
Lemma p10_plus a b : powerRZ 10 (a + b) = powerRZ 10 a * powerRZ 10 b.
Proof. apply powerRZ_add. lra. Qed.
Lemma p10_Z k : (0 <= k)%Z -> powerRZ 10 k = IZR (10 ^ k).
Proof.
  intros H. rewrite <- (Z2Nat.id k) by exact H. induction (Z.to_nat k) as [|n IH]; [reflexivity|].
  rewrite Nat2Z.inj_succ, Z.pow_succ_r by lia. unfold Z.succ. rewrite p10_plus, IH, mult_IZR. simpl. lra.
Qed.
Lemma p10_opp k : powerRZ 10 (- k) = / powerRZ 10 k.
Proof. rewrite powerRZ_neg'. reflexivity. Qed.
Lemma p10_le a b : (a <= b)%Z -> powerRZ 10 a <= powerRZ 10 b.
Proof.
  intros H. replace b with (a + (b - a))%Z by ring. rewrite p10_plus. assert (P := p10_pos a).
  assert (1 <= powerRZ 10 (b - a)); [|nra]. rewrite p10_Z by lia. apply IZR_le. assert (0 < 10 ^ (b - a))%Z by (apply Z.pow_pos_nonneg; lia). lia.
Qed.
Lemma p10_lt_inv a b : powerRZ 10 a < powerRZ 10 b -> (a < b)%Z.
Proof. intros H. destruct (Z.lt_ge_cases a b) as [|G]; [assumption|]. apply p10_le in G. lra. Qed.
Lemma pow10_pos k : (0 <= k)%Z -> (0 < 10 ^ k)%Z.
Proof. intros. apply Z.pow_pos_nonneg; lia. Qed.
Lemma pow2_pos k : (0 <= k)%Z -> (0 < 2 ^ k)%Z.
Proof. intros. apply Z.pow_pos_nonneg; lia. Qed.
Lemma b2_Z k : (0 <= k)%Z -> bpow radix2 k = IZR (2 ^ k).
Proof. intros. symmetry. now apply (IZR_Zpower radix2). Qed.

Lemma frac_le p q a b : (0 < q)%Z -> (0 < b)%Z -> (p * b <= a * q)%Z <-> IZR p / IZR q <= IZR a / IZR b.
Proof.
  intros Hq Hb. apply IZR_lt in Hq, Hb. split; intros H.
  - apply IZR_le in H. rewrite !mult_IZR in H. apply Rmult_le_reg_r with (IZR q * IZR b); [nra|].
    replace (IZR p / IZR q * (IZR q * IZR b)) with (IZR p * IZR b) by (field; lra). replace (IZR a / IZR b * (IZR q * IZR b)) with (IZR a * IZR q) by (field; lra). exact H.
  - apply le_IZR. rewrite !mult_IZR. apply Rmult_le_compat_r with (r := IZR q * IZR b) in H; [|nra].
    replace (IZR p / IZR q * (IZR q * IZR b)) with (IZR p * IZR b) in H by (field; lra). replace (IZR a / IZR b * (IZR q * IZR b)) with (IZR a * IZR q) in H by (field; lra). exact H.
Qed.
Lemma frac_lt p q a b : (0 < q)%Z -> (0 < b)%Z -> (p * b < a * q)%Z <-> IZR p / IZR q < IZR a / IZR b.
Proof.
  intros Hq Hb. destruct (@frac_le a b p q Hb Hq) as [A B]. split; intros H.
  - destruct (Rlt_or_le (IZR p / IZR q) (IZR a / IZR b)) as [|G]; [assumption|]. apply B in G. lia.
  - destruct (Z.lt_ge_cases (p * b) (a * q)) as [|G]; [assumption|]. apply A in G. lra.
Qed.

Lemma fraction_spec m e a b : (0 < m)%Z -> fraction m e = (a, b) -> (0 < a /\ 0 < b)%Z /\ num m e = IZR a / IZR b.
Proof.
  unfold fraction, num. intros Hm. destruct (Z.leb_spec 0 e) as [H|H]; intros [= <- <-].
  - rewrite mult_IZR, <- b2_Z by exact H. split; [|field]. assert (P := pow2_pos H). nia.
  - assert (P := @pow2_pos (- e) ltac:(lia)). split; [lia|]. rewrite <- b2_Z by lia. rewrite bpow_opp. assert (Q := bpow2_pos e). field. lra.
Qed.
Lemma times_pow10_spec e a b p q : (0 < a)%Z -> (0 < b)%Z -> times_pow10 e a b = (p, q) -> (0 < p /\ 0 < q)%Z /\ IZR p / IZR q = IZR a / IZR b / powerRZ 10 e.
Proof.
  unfold times_pow10. intros Ha Hb. assert (Q := p10_pos e). assert (Rb := IZR_lt _ _ Hb). destruct (Z.leb_spec 0 e) as [H|H]; intros [= <- <-].
  - assert (P := pow10_pos H). split; [nia|]. rewrite mult_IZR, <- p10_Z by exact H. field. lra.
  - assert (P := @pow10_pos (- e) ltac:(lia)). split; [nia|]. rewrite mult_IZR, <- p10_Z by lia. rewrite p10_opp. field. lra.
Qed.
Lemma one_le_frac p q : (0 < q)%Z -> (q <= p)%Z <-> 1 <= IZR p / IZR q.
Proof. intros H. assert (F := @frac_le 1 1 p q ltac:(lia) H). rewrite Z.mul_1_l, Z.mul_1_r in F. rewrite F. replace (1 / 1) with 1 by field. tauto. Qed.

Lemma rounds_to_spec m e c k : canon m e -> rounds_to m e c k = true <-> nearest (decimal c k) = num m e.
Proof.
  intros Hc. rewrite (nearest_iff _ Hc). unfold rounds_to.
  set (lo := if ((m =? 2 ^ 52) && negb (e =? -1074))%Z then (4 * m - 1)%Z else (4 * m - 2)%Z).
  assert (El : lower m e = num lo (e - 2)) by (unfold lower, lo, halved; destruct (_ && _); reflexivity).
  assert (Hpq : exists p q, (if (0 <=? k)%Z then (c * 10 ^ k, 1)%Z else (c, 10 ^ (- k))%Z) = (p, q) /\ (0 < q)%Z /\ IZR p / IZR q = decimal c k).
  { unfold decimal. destruct (Z.leb_spec 0 k) as [H|H].
    - exists (c * 10 ^ k)%Z, 1%Z. split; [reflexivity|]. split; [lia|]. rewrite mult_IZR, <- p10_Z by exact H. field.
    - exists c, (10 ^ (- k))%Z. split; [reflexivity|]. split; [apply pow10_pos; lia|]. rewrite <- p10_Z by lia. rewrite p10_opp. assert (Q := p10_pos k). field. lra. }
  destruct Hpq as (p & q & -> & Hq & Ed). destruct (fraction 1 (e - 2)) as [a b] eqn:Ef. apply fraction_spec in Ef as [[Ha Hb] En]; [|lia].
  assert (Rb := IZR_lt _ _ Hb).
  assert (E : forall z, num z (e - 2) = IZR (z * a) / IZR b) by (intros z; rewrite mult_IZR; unfold num in *; rewrite Rmult_1_l in En; rewrite En; field; lra).
  unfold upper. rewrite El, !E, <- Ed.
  destruct (Z.even m); rewrite andb_true_iff, ?Z.leb_le, ?Z.ltb_lt, ?frac_le, ?frac_lt by assumption; tauto.
Qed.

Lemma find_exp_spec a b N : (0 < a)%Z -> (0 < b)%Z -> powerRZ 10 (N - 1) <= IZR a / IZR b < powerRZ 10 N ->
  forall fuel n, (Z.abs (N - n) < Z.of_nat fuel)%Z -> find_exp fuel a b n = N.
Proof.
  intros Ha Hb HN fuel. induction fuel as [|fuel IH]; intros n Hf; [lia|]. cbn [find_exp].
  destruct (times_pow10 n a b) as [p q] eqn:E. apply times_pow10_spec in E as [[_ Hq] E]; [|exact Ha|exact Hb].
  destruct (times_pow10 (n - 1) a b) as [p' q'] eqn:E'. apply times_pow10_spec in E' as [[Hp' Hq'] E']; [|exact Ha|exact Hb].
  set (V := IZR a / IZR b) in *. assert (P := p10_pos n). assert (P' := p10_pos (n - 1)).
  destruct (Z.leb_spec q p) as [H|H].
  - apply one_le_frac in H; [|exact Hq]. rewrite E in H. assert (powerRZ 10 n <= V).
    { apply Rmult_le_compat_r with (r := powerRZ 10 n) in H; [|lra]. replace (V / powerRZ 10 n * powerRZ 10 n) with V in H by (field; lra). lra. }
    assert (n < N)%Z by (apply p10_lt_inv; lra). apply IH. lia.
  - assert (Hn : V < powerRZ 10 n).
    { destruct (Rlt_or_le V (powerRZ 10 n)) as [|G]; [assumption|]. exfalso. assert (q <= p)%Z; [|lia]. apply one_le_frac; [exact Hq|]. rewrite E.
      apply Rmult_le_reg_r with (powerRZ 10 n); [lra|]. replace (V / powerRZ 10 n * powerRZ 10 n) with V by (field; lra). lra. }
    destruct (Z.ltb_spec p' q') as [H'|H'].
    + assert (Hn' : V < powerRZ 10 (n - 1)).
      { destruct (Rlt_or_le V (powerRZ 10 (n - 1))) as [|G]; [assumption|]. exfalso. assert (q' <= p')%Z; [|lia]. apply one_le_frac; [exact Hq'|]. rewrite E'.
        apply Rmult_le_reg_r with (powerRZ 10 (n - 1)); [lra|]. replace (V / powerRZ 10 (n - 1) * powerRZ 10 (n - 1)) with V by (field; lra). lra. }
      assert (N - 1 < n - 1)%Z by (apply p10_lt_inv; lra). apply IH. lia.
    + apply one_le_frac in H'; [|exact Hq']. rewrite E' in H'. assert (powerRZ 10 (n - 1) <= V).
      { apply Rmult_le_compat_r with (r := powerRZ 10 (n - 1)) in H'; [|lra]. replace (V / powerRZ 10 (n - 1) * powerRZ 10 (n - 1)) with V in H' by (field; lra). lra. }
      assert (N - 1 < n)%Z by (apply p10_lt_inv; lra). assert (n - 1 < N)%Z by (apply p10_lt_inv; lra). lia.
Qed.

(** Between a decimal that is rounded to V and V, all are. *)
Lemma nearest_between V v w : F64 V -> nearest v = V -> (v <= w <= V \/ V <= w <= v) -> nearest w = V.
Proof.
  intros HF Hv [[H1 H2]|[H1 H2]]; apply nearest_le in H1, H2; rewrite (nearest_id HF) in *; lra.
Qed.
Lemma decimal_le c c' k : (c <= c')%Z -> decimal c k <= decimal c' k.
Proof. intros H. apply IZR_le in H. unfold decimal. assert (P := p10_pos k). nra. Qed.

Lemma candidate_spec m e k : canon m e ->
  exists f, IZR f * powerRZ 10 k <= num m e < IZR (f + 1) * powerRZ 10 k /\
  match candidate m e k with
  | Some c => (c = f \/ c = (f + 1)%Z) /\ nearest (decimal c k) = num m e /\
              forall c', nearest (decimal c' k) = num m e -> Rabs (decimal c k - num m e) <= Rabs (decimal c' k - num m e)
  | None => forall c', nearest (decimal c' k) <> num m e
  end.
Proof.
  intros Hc. unfold candidate. destruct (fraction m e) as [a b] eqn:E. apply fraction_spec in E as [[Ha Hb] E]; [|apply Hc].
  destruct (times_pow10 k a b) as [p q] eqn:E'. apply times_pow10_spec in E' as [[Hp Hq] E']; [|exact Ha|exact Hb].
  rewrite <- E in E'. assert (P := p10_pos k). set (f := (p / q)%Z).
  assert (Hf := Z.mul_div_le p q Hq). assert (Hf' := Z.mul_succ_div_gt p q Hq). fold f in Hf, Hf'. exists f.
  set (V := num m e) in *. assert (HF : F64 V) by (apply canon_F; exact Hc). assert (RQ := IZR_lt _ _ Hq).
  assert (EV : V = IZR p / IZR q * powerRZ 10 k) by (rewrite E'; field; lra).
  assert (L : IZR f <= IZR p / IZR q).
  { apply Rmult_le_reg_r with (IZR q); [lra|]. replace (IZR p / IZR q * IZR q) with (IZR p) by (field; lra). rewrite <- mult_IZR. apply IZR_le. lia. }
  assert (U : IZR p / IZR q < IZR (f + 1)).
  { apply Rmult_lt_reg_r with (IZR q); [lra|]. replace (IZR p / IZR q * IZR q) with (IZR p) by (field; lra). rewrite <- mult_IZR. apply IZR_lt. lia. }
  assert (HfV : IZR f * powerRZ 10 k <= V < IZR (f + 1) * powerRZ 10 k) by (rewrite EV; split; nra).
  split; [exact HfV|]. change (IZR f * powerRZ 10 k) with (decimal f k) in HfV. change (IZR (f + 1) * powerRZ 10 k) with (decimal (f + 1) k) in HfV.
  assert (Hlo := rounds_to_spec f k Hc). assert (Hup := rounds_to_spec (f + 1) k Hc). fold V in Hlo, Hup.
  assert (Dlo : forall c', (c' <= f)%Z -> nearest (decimal c' k) = V -> nearest (decimal f k) = V).
  { intros c' Hc' H. apply (nearest_between HF H). left. split; [apply decimal_le; exact Hc'|lra]. }
  assert (Dup : forall c', (f + 1 <= c')%Z -> nearest (decimal c' k) = V -> nearest (decimal (f + 1) k) = V).
  { intros c' Hc' H. apply (nearest_between HF H). right. split; [lra|apply decimal_le; exact Hc']. }
  assert (Alo : forall c', (c' <= f)%Z -> V - decimal f k <= Rabs (decimal c' k - V)).
  { intros c' Hc'. apply (decimal_le k) in Hc'. rewrite Rabs_left1; lra. }
  assert (Aup : forall c', (f + 1 <= c')%Z -> decimal (f + 1) k - V <= Rabs (decimal c' k - V)).
  { intros c' Hc'. apply (decimal_le k) in Hc'. rewrite Rabs_pos_eq; lra. }
  assert (Blo : Rabs (decimal f k - V) = V - decimal f k) by (rewrite Rabs_left1; lra).
  assert (Bup : Rabs (decimal (f + 1) k - V) = decimal (f + 1) k - V) by (rewrite Rabs_pos_eq; lra).
  destruct (rounds_to m e f k) eqn:El, (rounds_to m e (f + 1) k) eqn:Eu; cbn [andb].
  - destruct Hlo as [Hlo _], Hup as [Hup _]. specialize (Hlo eq_refl). specialize (Hup eq_refl).
    set (r := (p - f * q)%Z). assert (Er : V - decimal f k = IZR r / IZR q * powerRZ 10 k) by (unfold r, decimal; rewrite minus_IZR, mult_IZR, EV; field; lra).
    assert (Er' : decimal (f + 1) k - V = (1 - IZR r / IZR q) * powerRZ 10 k).
    { replace (decimal (f + 1) k - V) with (powerRZ 10 k - (V - decimal f k)) by (unfold decimal; rewrite plus_IZR; ring). rewrite Er. ring. }
    destruct ((2 * r <? q)%Z || (2 * r =? q)%Z && Z.even f) eqn:Ec.
    + assert (Hr : (2 * r <= q)%Z). { apply orb_true_iff in Ec as [Ec|Ec]; [apply Z.ltb_lt in Ec; lia|apply andb_true_iff in Ec as [Ec _]; apply Z.eqb_eq in Ec; lia]. }
      assert (Hr' : IZR r / IZR q <= / 2).
      { apply Rmult_le_reg_r with (IZR q); [lra|]. replace (IZR r / IZR q * IZR q) with (IZR r) by (field; lra). apply IZR_le in Hr. rewrite mult_IZR in Hr. lra. }
      split; [now left|]. split; [exact Hlo|]. intros c' _. rewrite Blo. destruct (Z.le_gt_cases c' f) as [H|H]; [now apply Alo|]. eapply Rle_trans; [|apply Aup; lia]. rewrite Er, Er'. nra.
    + assert (Hr : (q <= 2 * r)%Z). { apply orb_false_iff in Ec as [Ec _]. apply Z.ltb_ge in Ec. exact Ec. }
      assert (Hr' : / 2 <= IZR r / IZR q).
      { apply Rmult_le_reg_r with (IZR q); [lra|]. replace (IZR r / IZR q * IZR q) with (IZR r) by (field; lra). apply IZR_le in Hr. rewrite mult_IZR in Hr. lra. }
      split; [now right|]. split; [exact Hup|]. intros c' _. rewrite Bup. destruct (Z.le_gt_cases c' f) as [H|H]; [|apply Aup; lia]. eapply Rle_trans; [|apply Alo; exact H]. rewrite Er, Er'. nra.
  - destruct Hlo as [Hlo _]. specialize (Hlo eq_refl). split; [now left|]. split; [exact Hlo|]. intros c' Hc'. destruct (Z.le_gt_cases c' f) as [H|H]; [rewrite Blo; now apply Alo|].
    exfalso. apply Dup in Hc'; [|lia]. apply Hup in Hc'. discriminate.
  - destruct Hup as [Hup _]. specialize (Hup eq_refl). split; [now right|]. split; [exact Hup|]. intros c' Hc'. destruct (Z.le_gt_cases c' f) as [H|H]; [|rewrite Bup; apply Aup; lia].
    exfalso. apply Dlo in Hc'; [|exact H]. apply Hlo in Hc'. discriminate.
  - intros c' Hc'. destruct (Z.le_gt_cases c' f) as [H|H].
    + apply Dlo in Hc'; [|exact H]. apply Hlo in Hc'. discriminate.
    + apply Dup in Hc'; [|lia]. apply Hup in Hc'. discriminate.
Qed.

Lemma decimal_shift c k d : (0 <= d)%Z -> decimal (c * 10 ^ d) k = decimal c (k + d).
Proof. intros H. unfold decimal. rewrite mult_IZR, <- p10_Z, p10_plus by exact H. ring. Qed.

(** A decimal of n digits is no closer to V than the multiples of 10^(N-n). *)
Lemma dominated V N n c k : F64 V -> powerRZ 10 (N - 1) <= V < powerRZ 10 N -> (1 <= n)%Z -> (0 < c < 10 ^ n)%Z -> nearest (decimal c k) = V ->
  exists c', nearest (decimal c' (N - n)) = V /\ Rabs (decimal c' (N - n) - V) <= Rabs (decimal c k - V).
Proof.
  intros HF HV Hn Hc H. destruct (Z.le_gt_cases (N - n) k) as [Hk|Hk].
  - exists (c * 10 ^ (k - (N - n)))%Z. rewrite decimal_shift by lia. replace (N - n + (k - (N - n)))%Z with k by ring. split; [exact H|lra].
  - exists (1 * 10 ^ (n - 1))%Z. rewrite decimal_shift by lia. replace (N - n + (n - 1))%Z with (N - 1)%Z by ring.
    assert (E : decimal 1 (N - 1) = powerRZ 10 (N - 1)) by (unfold decimal; ring).
    assert (L : decimal c k <= powerRZ 10 (N - 1)).
    { apply Rle_trans with (powerRZ 10 (n + k)); [|apply p10_le; lia]. rewrite p10_plus, p10_Z by lia. unfold decimal. assert (P := p10_pos k).
      destruct Hc as [_ Hc]. apply IZR_lt in Hc. nra. }
    rewrite E. split; [apply (nearest_between HF H); left; lra|]. rewrite !Rabs_left1; lra.
Qed.

Lemma very_near m e v : canon m e -> Rabs (v - num m e) * 18014398509481984 < num m e -> nearest v = num m e.
Proof.
  intros Hc H. apply (nearest_iff _ Hc). assert (Q := bpow2_pos (e - 2)). destruct Hc as (Hm & He & Hc).
  assert (EV : num m e = IZR (4 * m) * bpow radix2 (e - 2)) by (rewrite <- num_4; reflexivity).
  assert (Hl : lower m e < v < upper m e).
  { unfold lower, upper, halved. rewrite EV in H. set (V := IZR (4 * m) * bpow radix2 (e - 2)) in *. set (h := bpow radix2 (e - 2)) in *.
    assert (Hmr : IZR m <= 9007199254740991) by (apply (IZR_le m (2 ^ 53 - 1)); lia).
    assert (EV' : V = 4 * IZR m * h) by (unfold V; rewrite mult_IZR; reflexivity).
    assert (HH : Rabs (v - V) * 18014398509481984 < 4 * IZR m * h) by lra.
    assert (H2 : Rabs (v - V) < 2 * h) by nra. apply Rabs_lt_inv in H2. unfold num. fold h.
    destruct (Z.eqb_spec m (2 ^ 52)) as [E|E]; [destruct (Z.eqb_spec e (-1074)) as [E'|E']|]; cbn [andb negb]; rewrite ?minus_IZR, plus_IZR, mult_IZR; try lra.
    subst m. assert (H1 : Rabs (v - V) < h) by (simpl in HH; nra). apply Rabs_lt_inv in H1. lra. }
  destruct (Z.even m); lra.
Qed.

Lemma shortest_loop_spec m e N : canon m e -> powerRZ 10 (N - 1) <= num m e < powerRZ 10 N ->
  forall fuel n, (n + Z.of_nat fuel = 18)%Z -> (1 <= n)%Z -> (1 <= fuel)%nat ->
  (forall c' k', (0 < c')%Z -> (c' * 10 < 10 ^ n)%Z -> nearest (decimal c' k') <> num m e) ->
  exists c n', shortest_loop fuel m e N n = (c, N - n')%Z /\ (1 <= n' <= 17)%Z /\ (10 ^ (n' - 1) <= c <= 10 ^ n')%Z /\
    nearest (decimal c (N - n')) = num m e /\
    (forall c' k', (0 < c')%Z -> (c' * 10 < 10 ^ n')%Z -> nearest (decimal c' k') <> num m e) /\
    (forall c' k', (0 < c' < 10 ^ n')%Z -> nearest (decimal c' k') = num m e -> Rabs (decimal c (N - n') - num m e) <= Rabs (decimal c' k' - num m e)).
Proof.
  intros Hc HN fuel. assert (HF := canon_F Hc). set (V := num m e) in *. induction fuel as [|fuel IH]; intros n Hf Hn Hf1 Hmin; [lia|].
  cbn [shortest_loop]. destruct (@candidate_spec m e (N - n) Hc) as (f & Hfl & Hcand). fold V in Hfl, Hcand.
  assert (P := p10_pos (N - n)).
  assert (EN : powerRZ 10 N = IZR (10 ^ n) * powerRZ 10 (N - n)) by (rewrite <- p10_Z, <- p10_plus by lia; f_equal; lia).
  assert (EN1 : powerRZ 10 (N - 1) = IZR (10 ^ (n - 1)) * powerRZ 10 (N - n)) by (rewrite <- p10_Z, <- p10_plus by lia; f_equal; lia).
  assert (F1 : (10 ^ (n - 1) <= f)%Z). { apply Z.lt_succ_r. unfold Z.succ. apply lt_IZR. apply Rmult_lt_reg_r with (powerRZ 10 (N - n)); [exact P|lra]. }
  assert (F2 : (f < 10 ^ n)%Z). { apply lt_IZR. apply Rmult_lt_reg_r with (powerRZ 10 (N - n)); [exact P|lra]. }
  destruct (candidate m e (N - n)) as [c|] eqn:Ec.
  - destruct Hcand as (Hcf & Hnear & Hclose). exists c, n. split; [reflexivity|]. split; [lia|]. split; [lia|]. split; [exact Hnear|]. split; [exact Hmin|].
    intros c' k' Hc' H'. destruct (@dominated V N n c' k' HF HN Hn Hc' H') as (c'' & Hn'' & Hl''). eapply Rle_trans; [apply Hclose; exact Hn''|exact Hl''].
  - assert (Hno : forall c' k', (0 < c')%Z -> (c' * 10 < 10 ^ (n + 1))%Z -> nearest (decimal c' k') <> V).
    { intros c' k' H1 H2 H3. assert (H4 : (0 < c' < 10 ^ n)%Z) by (rewrite Z.pow_add_r in H2 by lia; lia).
      destruct (@dominated V N n c' k' HF HN Hn H4 H3) as (c'' & Hn'' & _). exact (Hcand _ Hn''). }
    destruct (Nat.eq_dec fuel 0) as [->|Hz]; [exfalso|apply IH; try lia; exact Hno].
    assert (n = 17)%Z by lia. subst n.
    assert (B : IZR (10 ^ (17 - 1)) * powerRZ 10 (N - 17) <= V) by lra. change (IZR (10 ^ (17 - 1))) with 10000000000000000 in B.
    destruct (Rle_or_lt (V - decimal f (N - 17)) (powerRZ 10 (N - 17) / 2)) as [H|H].
    + apply (Hcand f). apply very_near; [exact Hc|]. fold V. change (IZR f * powerRZ 10 (N - 17)) with (decimal f (N - 17)) in Hfl. rewrite Rabs_left1; lra.
    + apply (Hcand (f + 1)%Z). apply very_near; [exact Hc|]. fold V. unfold decimal in *. rewrite plus_IZR in *. rewrite Rabs_pos_eq; lra.
Qed.

Lemma shortest_spec m e : canon m e -> (e <= 971)%Z -> exists c k n, shortest m e = (c, k) /\ (1 <= n <= 17)%Z /\ (10 ^ (n - 1) <= c < 10 ^ n)%Z /\
    nearest (decimal c k) = num m e /\
    (forall c' k', (0 < c')%Z -> (c' * 10 < 10 ^ n)%Z -> nearest (decimal c' k') <> num m e) /\
    (forall c' k', (0 < c' < 10 ^ n)%Z -> nearest (decimal c' k') = num m e -> Rabs (decimal c k - num m e) <= Rabs (decimal c' k' - num m e)).
Proof.
  intros Hc He. assert (HV := num_pos e (proj1 (proj1 Hc))).
  assert (HN : exists N, powerRZ 10 (N - 1) <= num m e < powerRZ 10 N).
  { set (r10 := Build_radix 10 eq_refl). assert (E10 : forall z, bpow r10 z = powerRZ 10 z) by (intros z; rewrite bpow_powerRZ; reflexivity).
    destruct (mag r10 (num m e)) as [N H]. exists N. specialize (H ltac:(lra)). rewrite !E10, Rabs_pos_eq in H by lra. exact H. }
  destruct HN as [N HN].
  assert (N1 : (N < 310)%Z).
  { enough (N - 1 < 309)%Z by lia. apply p10_lt_inv. eapply Rle_lt_trans; [apply HN|]. rewrite p10_Z by lia. destruct Hc as (Hm & _).
    unfold num. apply Rlt_trans with (IZR (2 ^ 53) * bpow radix2 971).
    - assert (bpow radix2 e <= bpow radix2 971) by (apply bpow_le; lia). assert (Q := bpow2_pos e). assert (IZR m < IZR (2 ^ 53)) by (apply IZR_lt; lia).
      assert (0 < IZR m) by (apply IZR_lt; lia). nra.
    - rewrite b2_Z, <- mult_IZR by lia. apply IZR_lt. vm_compute. reflexivity. }
  assert (N2 : (-325 < N)%Z).
  { apply p10_lt_inv. eapply Rle_lt_trans; [|apply HN]. destruct Hc as (Hm & He' & _). apply Rle_trans with (bpow radix2 (-1074)).
    - change (-325)%Z with (- (325))%Z. rewrite p10_opp. change (-1074)%Z with (- (1074))%Z. rewrite bpow_opp, b2_Z, p10_Z by lia.
      apply Rinv_le; [apply IZR_lt; apply pow2_pos; lia|]. apply IZR_le. vm_compute. discriminate.
    - unfold num. assert (bpow radix2 (-1074) <= bpow radix2 e) by (apply bpow_le; lia). assert (Q := bpow2_pos e). assert (1 <= IZR m) by (apply IZR_le; lia). nra. }
  unfold shortest. destruct (fraction m e) as [a b] eqn:Ef. apply fraction_spec in Ef as [[Ha Hb] Ef]; [|apply Hc].
  rewrite (@find_exp_spec a b N Ha Hb ltac:(rewrite <- Ef; exact HN)) by (change (Z.of_nat 700) with 700%Z; lia).
  destruct (@shortest_loop_spec m e N Hc HN 17 1 eq_refl ltac:(lia) ltac:(lia)) as (c & n & E & Hn & Hcn & Hnear & Hmin & Hclose).
  { intros c' k' H1 H2. simpl in H2. lia. }
  rewrite E. destruct (Z.eqb_spec c 10) as [->|Hc10].
  - assert (Hn1 : (n = 1)%Z).
    { destruct (Z.eq_dec n 1) as [|Hx]; [assumption|exfalso]. apply (Hmin 1%Z (N - n + 1)%Z ltac:(lia)); [|rewrite <- decimal_shift by lia; exact Hnear].
      assert (10 ^ 2 <= 10 ^ n)%Z by (apply Z.pow_le_mono_r; lia). simpl Z.pow in *. lia. }
    subst n. assert (ED : decimal 1 (N - 1 + 1) = decimal 10 (N - 1)) by (rewrite <- decimal_shift by lia; reflexivity).
    exists 1%Z, (N - 1 + 1)%Z, 1%Z. split; [reflexivity|]. split; [lia|]. split; [simpl; lia|]. rewrite ED. auto.
  - exists c, (N - n)%Z, n. split; [reflexivity|]. split; [exact Hn|]. split; [|auto].
    assert (c <> 10 ^ n)%Z; [|lia]. intros ->. destruct (Z.eq_dec n 1) as [->|Hx]; [now apply Hc10|].
    apply (Hmin 1%Z (N - n + n)%Z ltac:(lia)); [|rewrite <- decimal_shift, Z.mul_1_l by lia; exact Hnear].
    assert (10 ^ 2 <= 10 ^ n)%Z by (apply Z.pow_le_mono_r; lia). simpl Z.pow in *. lia.
Qed.
