(** The logarithm of the gamma function, and the convexity of that of the beta function, over the real numbers. *)
From Coq Require Import Reals Lra Lia Psatz.
From Verif Require Import Base RealArith SpecMarginal MarginalProofs SpecDigamma DigammaReal SpecBound.
Set Implicit Arguments.
Local Open Scope R_scope.

(** ** The n-th steps of the limits *)
Definition T (x : R) (n : nat) : R := sum_f_R0 (fun k => / (x + INR k) ^ 2) n.
Definition Lg (n : nat) (x : R) : R := x * ln (INR (S n)) + sum (fun k => ln (INR k)) (seq 1 n) - sum (fun k => ln (x + INR k)) (seq 0 (S n)).

Lemma d_sum (f : nat -> R -> R) (f' : nat -> R) t n : (forall k, (k <= n)%nat -> derivable_pt_lim (f k) t (f' k)) ->
  derivable_pt_lim (fun t => sum_f_R0 (fun k => f k t) n) t (sum_f_R0 f' n).
Proof.
  induction n as [|n IH]; intros H; [apply H; lia|]. cbn [sum_f_R0]. apply (derivable_pt_lim_plus (fun t => sum_f_R0 (fun k => f k t) n) (f (S n))); [apply IH; intros; apply H; lia|apply H; lia].
Qed.
Lemma d_list {X} (f : X -> R -> R) (f' : X -> R) t (l : list X) : (forall x, In x l -> derivable_pt_lim (f x) t (f' x)) ->
  derivable_pt_lim (fun t => sum (fun x => f x t) l) t (sum f' l).
Proof.
  induction l as [|x l IH]; intros H; [exact (derivable_pt_lim_const 0 t)|]. change (sum f' (x :: l)) with (f' x + sum f' l).
  apply (derivable_pt_lim_plus (f x) (fun t => sum (fun x => f x t) l)); [apply H; now left|apply IH; intros; apply H; now right].
Qed.
(** The derivative along a line. *)
Lemma d_line (g : R -> R) a d t v : derivable_pt_lim g (a + t * d) v -> derivable_pt_lim (fun t => g (a + t * d)) t (d * v).
Proof.
  intros H. assert (H1 : derivable_pt_lim (fun t => a + t * d) t d).
  { assert (H2 := derivable_pt_lim_plus (fun _ => a) (fun t => t * d) t 0 d (derivable_pt_lim_const a t)). rewrite Rplus_0_l in H2. apply H2.
    assert (H3 := derivable_pt_lim_mult Datatypes.id (fun _ => d) t 1 0 (derivable_pt_lim_id t) (derivable_pt_lim_const d t)). cbv beta in H3. unfold Datatypes.id in H3. replace (1 * d + t * 0) with d in H3 by ring. exact H3. }
  assert (H2 := derivable_pt_lim_comp (fun t => a + t * d) g t d v H1 H). rewrite (Rmult_comm v d) in H2. exact H2.
Qed.
Lemma sum_seq_R0 (f : nat -> R) n : sum f (seq 0 (S n)) = sum_f_R0 f n.
Proof. induction n as [|n IH]; [unfold sum; simpl; lra|]. rewrite seq_S, sum_app, IH. cbn [sum_f_R0]. unfold sum. simpl. lra. Qed.

Lemma d_A n t : 0 < t -> derivable_pt_lim (fun x => A x n) t (T t n).
Proof.
  intros Ht. unfold A, T. assert (H := derivable_pt_lim_minus (fun _ => ln (INR (S n))) (fun x => sum_f_R0 (fun k => / (x + INR k)) n) t 0 (sum_f_R0 (fun k => - / (t + INR k) ^ 2) n) (derivable_pt_lim_const _ t)).
  replace (sum_f_R0 (fun k => / (t + INR k) ^ 2) n) with (0 - sum_f_R0 (fun k => - / (t + INR k) ^ 2) n).
  - apply H. apply (@d_sum (fun k x => / (x + INR k))). intros k _. apply d_inv. assert (Hk := pos_INR k). lra.
  - clear H. induction n as [|n IH]; cbn [sum_f_R0]; lra.
Qed.
Lemma d_Lg n t : 0 < t -> derivable_pt_lim (Lg n) t (A t n).
Proof.
  intros Ht. unfold A. rewrite <- (@sum_seq_R0 (fun k => / (t + INR k))). unfold Lg. set (c := sum (fun k => ln (INR k)) (seq 1 n)).
  apply (derivable_pt_lim_minus (fun x => x * ln (INR (S n)) + c) (fun x => sum (fun k => ln (x + INR k)) (seq 0 (S n)))).
  - assert (H2 := derivable_pt_lim_plus (fun x => x * ln (INR (S n))) (fun _ => c) t (ln (INR (S n))) 0). rewrite Rplus_0_r in H2. apply H2; [|apply derivable_pt_lim_const].
    assert (H3 := derivable_pt_lim_mult Datatypes.id (fun _ => ln (INR (S n))) t 1 0 (derivable_pt_lim_id t) (derivable_pt_lim_const _ t)). cbv beta in H3. unfold Datatypes.id in H3. replace (1 * ln (INR (S n)) + t * 0) with (ln (INR (S n))) in H3 by ring. exact H3.
  - apply (@d_list nat (fun k x => ln (x + INR k)) (fun k => / (t + INR k))). intros k _. apply d_ln. assert (Hk := pos_INR k). lra.
Qed.

(** ** x T (x) decreases *)
Definition u (y : R) : R := / y + / (2 * y ^ 2) + / (6 * y ^ 3).
Definition v (y : R) : R := / y ^ 2 + / y ^ 3.
Lemma u_step y : 0 < y -> / y ^ 2 <= u y - u (y + 1).
Proof.
  intros H. assert (E : u y - u (y + 1) - / y ^ 2 = / (6 * y ^ 3 * (y + 1) ^ 3)) by (unfold u; field; lra).
  assert (0 < / (6 * y ^ 3 * (y + 1) ^ 3)); [|lra]. apply Rinv_0_lt_compat. apply Rmult_lt_0_compat; [|apply pow_lt; lra]. apply Rmult_lt_0_compat; [lra|apply pow_lt; lra].
Qed.
Lemma v_step y : 0 < y -> v y - v (y + 1) <= 2 * / y ^ 3.
Proof.
  intros H. assert (E : 2 * / y ^ 3 - (v y - v (y + 1)) = (2 * y + 1) * / (y ^ 3 * (y + 1) ^ 3)) by (unfold v; field; lra).
  assert (0 < (2 * y + 1) * / (y ^ 3 * (y + 1) ^ 3)); [|lra]. apply Rmult_lt_0_compat; [lra|]. apply Rinv_0_lt_compat. apply Rmult_lt_0_compat; apply pow_lt; lra.
Qed.
Lemma slope_neg x n : / 2 <= x -> sum_f_R0 (fun k => (INR k - x) * / (x + INR k) ^ 3) n <= 0.
Proof.
  intros Hx. assert (H : sum_f_R0 (fun k => (INR k - x) * / (x + INR k) ^ 3) n <= u x - u (x + INR (S n)) - x * (v x - v (x + INR (S n)))).
  { assert (Hs : forall k, (INR k - x) * / (x + INR k) ^ 3 <= u (x + INR k) - u (x + INR (S k)) - x * (v (x + INR k) - v (x + INR (S k)))).
    { intros k. rewrite S_INR. rewrite <- Rplus_assoc. assert (Hk := pos_INR k). set (y := x + INR k). assert (Hy : 0 < y) by (unfold y; lra). assert (H1 := u_step Hy). assert (H2 := v_step Hy).
      replace ((INR k - x) * / y ^ 3) with (/ y ^ 2 - x * (2 * / y ^ 3)) by (replace (INR k - x) with (y - 2 * x) by (unfold y; ring); field; lra).
      apply (Rmult_le_compat_l x) in H2; lra. }
    induction n as [|n IH].
    - assert (H0 := Hs O). replace (x + INR 0) with x in H0 by (simpl; ring). cbn [sum_f_R0]. replace (x + INR 0) with x by (simpl; ring). exact H0.
    - rewrite tech5. specialize (Hs (S n)). lra. }
  assert (Hn := pos_INR n). set (z := x + INR (S n)) in *. assert (Hz : x <= z - 1) by (unfold z; rewrite S_INR; lra). clearbody z.
  assert (E1 : u x - x * v x = (1 - 3 * x) * / (6 * x ^ 3)) by (unfold u, v; field; lra).
  assert (E2 : u z - (z - 1) * v z = (3 * z + 7) * / (6 * z ^ 3)) by (unfold u, v; field; lra).
  assert (P1 : 0 < / (6 * x ^ 3)) by (apply Rinv_0_lt_compat; apply Rmult_lt_0_compat; [lra|apply pow_lt; lra]).
  assert (P2 : 0 < / (6 * z ^ 3)) by (apply Rinv_0_lt_compat; apply Rmult_lt_0_compat; [lra|apply pow_lt; lra]).
  assert (P3 : 0 < v z) by (unfold v; apply Rplus_lt_0_compat; apply Rinv_0_lt_compat, pow_lt; lra).
  assert (Q1 : (1 - 3 * x) * / (6 * x ^ 3) <= 0) by nra. assert (Q2 : 0 <= (3 * z + 7) * / (6 * z ^ 3)) by (apply Rmult_le_pos; lra).
  assert (Q3 : x * v z <= (z - 1) * v z) by (apply Rmult_le_compat_r; lra). lra.
Qed.
Lemma T_pos x n : 0 < x -> 0 <= T x n.
Proof. intros Hx. apply sums_pos. intros k. apply Rlt_le, Rinv_0_lt_compat, pow_lt. assert (Hk := pos_INR k). lra. Qed.
Lemma xT_decreases x y n : / 2 <= x <= y -> y * T y n <= x * T x n.
Proof.
  intros [Hx Hy]. destruct (Req_dec x y) as [->|Hne]; [lra|].
  destruct (@MVT_cor2 (fun x => sum_f_R0 (fun k => x * / (x + INR k) ^ 2) n) (fun x => sum_f_R0 (fun k => (INR k - x) * / (x + INR k) ^ 3) n) x y ltac:(lra)) as (c & Hc & Hcxy).
  - intros c Hc. apply (@d_sum (fun k x => x * / (x + INR k) ^ 2) (fun k => (INR k - c) * / (c + INR k) ^ 3)). intros k _. assert (Hk := pos_INR k).
    assert (H := @d_pow (INR k) c 2 1 ltac:(lra)). assert (H2 := derivable_pt_lim_mult Datatypes.id (fun t => 1 * / (t + INR k) ^ 2) c 1 _ (derivable_pt_lim_id c) H). cbv beta in H2. unfold Datatypes.id in H2.
    replace ((INR k - c) * / (c + INR k) ^ 3) with (1 * (1 * / (c + INR k) ^ 2) + c * (- (1) * INR 2 * / (c + INR k) ^ 3)) by (simpl; field; lra).
    intros eps He. destruct (H2 eps He) as [de Hd]. exists de. intros h Hh Hl. specialize (Hd h Hh Hl). unfold mult_fct in Hd. rewrite !Rmult_1_l in Hd. rewrite !Rmult_1_l. exact Hd.
  - assert (Hs := @slope_neg c n ltac:(lra)). assert (Hm : sum_f_R0 (fun k => (INR k - c) * / (c + INR k) ^ 3) n * (y - x) <= 0) by nra.
    assert (E : forall w, w * T w n = sum_f_R0 (fun k => w * / (w + INR k) ^ 2) n) by (intros w; unfold T; rewrite scal_sum; apply sum_eq; intros; apply Rmult_comm). rewrite !E. lra.
Qed.
(** ** The second derivative of the logarithm of the beta function *)
Lemma two d D x X n : / 2 <= x -> / 2 <= X -> (d + D) ^ 2 * T (x + X) n <= d ^ 2 * T x n + D ^ 2 * T X n.
Proof.
  intros Hx HX. assert (H1 := @xT_decreases x (x + X) n ltac:(lra)). assert (H2 := @xT_decreases X (x + X) n ltac:(lra)). assert (H0 := @T_pos (x + X) n ltac:(lra)).
  set (c := T (x + X) n) in *. set (a := T x n) in *. set (b := T X n) in *. clearbody a b c.
  assert (Ha : (x + X) / x * c <= a). { apply Rmult_le_reg_l with x; [lra|]. replace (x * ((x + X) / x * c)) with ((x + X) * c) by (field; lra). exact H1. }
  assert (Hb : (x + X) / X * c <= b). { apply Rmult_le_reg_l with X; [lra|]. replace (X * ((x + X) / X * c)) with ((x + X) * c) by (field; lra). exact H2. }
  assert (Ha' := Rmult_le_compat_l (d ^ 2) _ _ (pow2_ge_0 d) Ha). assert (Hb' := Rmult_le_compat_l (D ^ 2) _ _ (pow2_ge_0 D) Hb).
  assert (E : d ^ 2 * ((x + X) / x * c) + D ^ 2 * ((x + X) / X * c) - (d + D) ^ 2 * c = (d * X - D * x) ^ 2 * (c * (/ x * / X))) by (field; lra).
  assert (Hp : 0 <= (d * X - D * x) ^ 2 * (c * (/ x * / X))). { apply Rmult_le_pos; [apply pow2_ge_0|]. apply Rmult_le_pos; [exact H0|]. apply Rmult_le_pos; apply Rlt_le, Rinv_0_lt_compat; lra. }
  lra.
Qed.
Lemma sum_half {X} (x : X -> R) l : (forall i, In i l -> / 2 <= x i) -> l <> [] -> / 2 <= sum x l.
Proof.
  intros H Hl. destruct l as [|i l]; [congruence|]. rewrite sum_cons. assert (/ 2 <= x i) by (apply H; now left). assert (0 <= sum x l); [|lra]. apply MarginalProofs.sum_nonneg. intros j Hj. assert (/ 2 <= x j) by (apply H; now right). lra.
Qed.
Lemma many {X} (d x : X -> R) n l : (forall i, In i l -> / 2 <= x i) -> sum d l ^ 2 * T (sum x l) n <= sum (fun i => d i ^ 2 * T (x i) n) l.
Proof.
  induction l as [|i l IH]; intros H; [rewrite !sum_nil; simpl; lra|]. rewrite !sum_cons. assert (Hi : / 2 <= x i) by (apply H; now left). assert (IH' := IH (fun j Hj => H j (or_intror Hj))).
  destruct l as [|j l]; [rewrite !sum_nil, !Rplus_0_r; lra|]. assert (Hj : / 2 <= sum x (j :: l)) by (apply sum_half; [intros k Hk; apply H; now right|discriminate]). assert (H2 := @two (d i) (sum d (j :: l)) (x i) (sum x (j :: l)) n Hi Hj). lra.
Qed.
(** ** Convexity, at step [n] *)
Lemma convex_n {X} (f c : X -> R) n l : (forall i, In i l -> / 2 <= f i) -> (forall i, In i l -> / 2 <= c i) -> l <> [] ->
  sum (fun i => (c i - f i) * A (f i) n) l - (sum c l - sum f l) * A (sum f l) n <= sum (fun i => Lg n (c i)) l - Lg n (sum c l) - (sum (fun i => Lg n (f i)) l - Lg n (sum f l)).
Proof.
  intros Hf Hc Hl. set (d := fun i => c i - f i). set (D := sum c l - sum f l).
  assert (HD : sum d l = D). { unfold d, D. clear. induction l as [|i l IH]; rewrite ?sum_nil, ?sum_cons; lra. }
  assert (Hin : forall t i, 0 <= t <= 1 -> In i l -> / 2 <= f i + t * d i). { intros t i Ht Hi. specialize (Hf i Hi). specialize (Hc i Hi). unfold d. nra. }
  assert (Hs : forall t, sum (fun i => f i + t * d i) l = sum f l + t * D). { intros t. rewrite sum_plus, sum_scal, HD. reflexivity. }
  assert (HS : forall t, 0 <= t <= 1 -> / 2 <= sum f l + t * D). { intros t Ht. rewrite <- Hs. apply sum_half; [intros; now apply Hin|exact Hl]. }
  set (G := fun t => sum (fun i => Lg n (f i + t * d i)) l - Lg n (sum f l + t * D)).
  set (G' := fun t => sum (fun i => d i * A (f i + t * d i) n) l - D * A (sum f l + t * D) n).
  set (G'' := fun t => sum (fun i => d i * (d i * T (f i + t * d i) n)) l - D * (D * T (sum f l + t * D) n)).
  destruct (@MVT_cor2 G G' 0 1 ltac:(lra)) as (xi & E & Hxi).
  { intros t Ht. unfold G, G'. apply (derivable_pt_lim_minus (fun t => sum (fun i => Lg n (f i + t * d i)) l) (fun t => Lg n (sum f l + t * D))).
    - apply (@d_list X (fun i t => Lg n (f i + t * d i))). intros i Hi. apply d_line, d_Lg. assert (H := Hin t i Ht Hi). lra.
    - apply d_line, d_Lg. assert (H := HS t Ht). lra. }
  destruct (@MVT_cor2 G' G'' 0 xi ltac:(lra)) as (eta & E' & Heta).
  { intros t Ht. unfold G', G''. apply (derivable_pt_lim_minus (fun t => sum (fun i => d i * A (f i + t * d i) n) l) (fun t => D * A (sum f l + t * D) n)).
    - apply (@d_list X (fun i t => d i * A (f i + t * d i) n) (fun i => d i * (d i * T (f i + t * d i) n))). intros i Hi. apply (derivable_pt_lim_scal (fun t => A (f i + t * d i) n)). apply (@d_line (fun x => A x n)), d_A. assert (H := Hin t i ltac:(lra) Hi). lra.
    - apply (derivable_pt_lim_scal (fun t => A (sum f l + t * D) n)). apply (@d_line (fun x => A x n)), d_A. assert (H := HS t ltac:(lra)). lra. }
  assert (H'' : 0 <= G'' eta). { assert (H := @many X d (fun i => f i + eta * d i) n l (fun i Hi => Hin eta i ltac:(lra) Hi)). rewrite Hs, HD in H. unfold G''.
    assert (Ee : sum (fun i => d i * (d i * T (f i + eta * d i) n)) l = sum (fun i => d i ^ 2 * T (f i + eta * d i) n) l) by (apply sum_ext; intros; ring). rewrite Ee. simpl in H |- *. lra. }
  assert (HG : G' 0 <= G' xi) by nra.
  assert (E0 : G' 0 = sum (fun i => (c i - f i) * A (f i) n) l - (sum c l - sum f l) * A (sum f l) n).
  { unfold G'. fold D. f_equal; [|rewrite Rmult_0_l, Rplus_0_r; reflexivity]. apply sum_ext. intros i _. unfold d. rewrite Rmult_0_l, Rplus_0_r. reflexivity. }
  assert (E1 : G 1 = sum (fun i => Lg n (c i)) l - Lg n (sum c l)).
  { unfold G. f_equal; [|f_equal; unfold D; ring]. apply sum_ext. intros i _. f_equal. unfold d. ring. }
  assert (E2 : G 0 = sum (fun i => Lg n (f i)) l - Lg n (sum f l)).
  { unfold G. f_equal; [|f_equal; ring]. apply sum_ext. intros i _. f_equal. ring. }
  fold D in E0. rewrite <- E0, <- E1, <- E2. lra.
Qed.
(** ** The limit *)
Lemma cv_sum {X} (a : X -> nat -> R) (b : X -> R) l : (forall i, In i l -> Un_cv (a i) (b i)) -> Un_cv (fun n => sum (fun i => a i n) l) (sum b l).
Proof.
  induction l as [|i l IH]; intros H; [intros eps He; exists O; intros; unfold sum; simpl; rewrite R_dist_eq; exact He|].
  change (Un_cv (fun n => a i n + sum (fun i => a i n) l) (b i + sum b l)). apply CV_plus; [apply H; now left|apply IH; intros; apply H; now right].
Qed.
Lemma cv_const c : Un_cv (fun _ => c) c.
Proof. intros eps He. exists O. intros. rewrite R_dist_eq. exact He. Qed.
Lemma cv_le a b x y : (forall n, a n <= b n) -> Un_cv a x -> Un_cv b y -> x <= y.
Proof. intros H Ha Hb. assert (Hd := CV_minus _ _ _ _ Hb Ha). assert (0 <= y - x); [|lra]. apply (@limit_ge _ _ 0 0 Hd ltac:(lra)). intros n. specialize (H n). unfold Rdiv. rewrite Rmult_0_l. lra. Qed.
Lemma convex {X} (lg : R -> R) (f c phi : X -> R) psi l : log_gamma lg -> (forall i, In i l -> / 2 <= f i) -> (forall i, In i l -> / 2 <= c i) ->
  (forall i, In i l -> digamma_at (f i) (phi i)) -> digamma_at (sum f l) psi -> l <> [] ->
  sum (fun i => (c i - f i) * (phi i - psi)) l <= sum (fun i => lg (c i)) l - lg (sum c l) - (sum (fun i => lg (f i)) l - lg (sum f l)).
Proof.
  intros HL Hf Hc Hphi Hpsi Hl. assert (HF := @sum_half X f l Hf Hl). assert (HC := @sum_half X c l Hc Hl).
  replace (sum (fun i => (c i - f i) * (phi i - psi)) l) with (sum (fun i => (c i - f i) * phi i) l - (sum c l - sum f l) * psi).
  2: { clear. induction l as [|i l IH]; rewrite ?sum_nil, ?sum_cons in *; lra. }
  eapply cv_le; [intros n; exact (@convex_n X f c n l Hf Hc Hl)| |].
  - apply CV_minus; [|apply CV_mult; [apply cv_const|exact Hpsi]]. apply (cv_sum (fun i n => (c i - f i) * A (f i) n)). intros i Hi. apply CV_mult; [apply cv_const|exact (Hphi i Hi)].
  - assert (HG : forall x, / 2 <= x -> Un_cv (fun n => Lg n x) (lg x)) by (intros x Hx; apply HL; lra).
    apply CV_minus; apply CV_minus; try (apply HG; assumption); apply (cv_sum (fun i n => Lg n (_ i))); intros i Hi; apply HG; auto.
Qed.
(** ** Existence *)
Lemma Lg_step n x : Lg (S n) x - Lg n x = x * (ln (INR (S (S n))) - ln (INR (S n))) + ln (INR (S n)) - ln (x + INR (S n)).
Proof.
  unfold Lg. rewrite (seq_S (S n) 0), (seq_S n 1), !sum_app. change (1 + n)%nat with (S n). change (0 + S n)%nat with (S n). rewrite !sum_cons, !sum_nil. ring.
Qed.
Lemma Lg_small n x : 0 < x -> Rabs (Lg (S n) x - Lg n x) <= (x ^ 2 + x) * / (INR (S n)) ^ 2.
Proof.
  intros Hx. rewrite Lg_step. assert (Hm : 0 < INR (S n)) by (apply lt_0_INR; lia). rewrite (S_INR (S n)). set (m := INR (S n)) in *. clearbody m.
  assert (H1 := @ln_diff (m + 1) m ltac:(lra) Hm). assert (H2 := @ln_diff m (m + 1) Hm ltac:(lra)). assert (H3 := @ln_diff (x + m) m ltac:(lra) Hm). assert (H4 := @ln_diff m (x + m) Hm ltac:(lra)).
  replace ((m + 1 - m) / m) with (/ m) in H1 by (field; lra). replace ((m - (m + 1)) / (m + 1)) with (- / (m + 1)) in H2 by (field; lra).
  replace ((x + m - m) / m) with (x * / m) in H3 by (field; lra). replace ((m - (x + m)) / (x + m)) with (- (x * / (x + m))) in H4 by (field; lra).
  apply (Rmult_le_compat_l x) in H1; [|lra]. apply (Rmult_le_compat_l x) in H2; [|lra].
  assert (P : 0 < / m ^ 2) by (apply Rinv_0_lt_compat, pow_lt; lra).
  assert (E1 : x * / m - x * / (x + m) <= x ^ 2 * / m ^ 2). { replace (x * / m - x * / (x + m)) with (x ^ 2 * (/ m * / (x + m))) by (field; lra). apply Rmult_le_compat_l; [apply pow2_ge_0|]. replace (/ m ^ 2) with (/ m * / m) by (field; lra). apply Rmult_le_compat_l; [apply Rlt_le, Rinv_0_lt_compat; lra|apply Rinv_le_contravar; lra]. }
  assert (E2 : x * / m - x * / (m + 1) <= x * / m ^ 2). { replace (x * / m - x * / (m + 1)) with (x * (/ m * / (m + 1))) by (field; lra). apply Rmult_le_compat_l; [lra|]. replace (/ m ^ 2) with (/ m * / m) by (field; lra). apply Rmult_le_compat_l; [apply Rlt_le, Rinv_0_lt_compat; lra|apply Rinv_le_contravar; lra]. }
  assert (0 <= x ^ 2 * / m ^ 2) by (apply Rmult_le_pos; [apply pow2_ge_0|lra]). assert (0 <= x * / m ^ 2) by (apply Rmult_le_pos; lra).
  apply Rabs_le. rewrite Rmult_plus_distr_r. lra.
Qed.
Lemma log_gamma_cv x : 0 < x -> {w | log_gamma_at x w}.
Proof.
  intros Hx. set (K := 2 * (x ^ 2 + x)). assert (HK : 0 <= K) by (unfold K; assert (H := pow2_ge_0 x); lra).
  assert (Hs : forall n, Rabs (Lg (S n) x - Lg n x) <= K * / INR (S n) - K * / INR (S (S n))).
  { intros n. eapply Rle_trans; [apply Lg_small, Hx|]. assert (Hm : 1 <= INR (S n)) by (change 1 with (INR 1); apply le_INR; lia). rewrite (S_INR (S n)). set (m := INR (S n)) in *. clearbody m.
    replace (K * / m - K * / (m + 1)) with ((x ^ 2 + x) * (2 * (/ m * / (m + 1)))) by (unfold K; field; lra). apply Rmult_le_compat_l; [unfold K in HK; lra|].
    replace (/ m ^ 2) with (/ m * / m) by (field; lra). rewrite <- Rmult_assoc, (Rmult_comm 2), Rmult_assoc. apply Rmult_le_compat_l; [apply Rlt_le, Rinv_0_lt_compat; lra|].
    apply Rmult_le_reg_l with (m * (m + 1)); [apply Rmult_lt_0_compat; lra|]. replace (m * (m + 1) * / m) with (m + 1) by (field; lra). replace (m * (m + 1) * (2 * / (m + 1))) with (2 * m) by (field; lra). lra. }
  set (M := fun n => Lg n x + K * / INR (S n)).
  assert (Hd : Un_decreasing M). { intros n. unfold M. specialize (Hs n). apply Rabs_le_inv in Hs. lra. }
  assert (Hb : forall n, Lg 0 x - K * / INR 1 <= Lg n x - K * / INR (S n)). { induction n as [|n IH]; [lra|]. specialize (Hs n). apply Rabs_le_inv in Hs. lra. }
  assert (HP : forall n, 0 <= K * / INR (S n)) by (intros n; apply Rmult_le_pos; [exact HK|apply Rlt_le, Rinv_0_lt_compat, lt_0_INR; lia]).
  destruct (decreasing_cv M Hd) as [w Hw].
  { exists (- (Lg 0 x - K * / INR 1)). intros y [n ->]. unfold opp_seq, M. specialize (Hb n). specialize (HP n). lra. }
  exists w. intros eps He. destruct (Hw (eps / 2) ltac:(lra)) as [N1 HN1]. destruct (@eventually_small K HK (eps / 2) ltac:(lra)) as [N2 HN2]. exists (N1 + N2)%nat. intros n Hn. fold (Lg n x).
  specialize (HN1 n ltac:(lia)). specialize (HN2 n ltac:(lia)). specialize (HP n). unfold R_dist, M, Rdiv in *. apply Rabs_def2 in HN1. apply Rabs_def1; lra.
Qed.
(** The function. *)
Definition lgamma (x : R) : R := match Rlt_dec 0 x with left H => proj1_sig (log_gamma_cv H) | right _ => 0 end.
Lemma lgamma_ok : log_gamma lgamma.
Proof. intros x Hx. unfold lgamma. destruct (Rlt_dec 0 x) as [H|]; [|contradiction]. exact (proj2_sig (log_gamma_cv H)). Qed.
