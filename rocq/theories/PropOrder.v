(** Properties of the sums over several threads in floating-point arithmetic (src/prune.rs): C45. *)
From Coq Require Import ZArith Reals Psatz Permutation.
From Flocq Require Import Core BinarySingleNaN.
From Verif Require Import Base BaseProofs F64 F64Proofs FloatErr Model SpecModel Par Lattice Prune NumericProofs SpecExp LseProofs PropEStep PropRound.
Set Implicit Arguments.
Local Open Scope nat_scope.

(** ** e^37 is between 2^53 and 2^54 *)
Lemma double_lo a q q' : (q <= exp a)%R -> (0 <= q)%R -> (q' <= q * q)%R -> (q' <= exp (2 * a))%R.
Proof. intros H1 H0 H2. replace (2 * a)%R with (a + a)%R by ring. rewrite exp_plus. nra. Qed.
Lemma double_hi a q q' : (exp a <= q)%R -> (q * q <= q')%R -> (exp (2 * a) <= q')%R.
Proof. intros H1 H2. assert (H := exp_pos a). replace (2 * a)%R with (a + a)%R by ring. rewrite exp_plus. nra. Qed.
Lemma exp_37_lo : (11 * 9007199254740992 <= 10 * exp 37)%R.
Proof.
  assert (E0 : ((4133 / 4096) <= exp (37 / 4096))%R) by (assert (H := exp_ineq1 (37 / 4096) ltac:(lra)); lra).
  assert (E1 := @double_lo _ _ (254537 / 250000) E0 ltac:(lra) ltac:(lra)).
  assert (E2 := @double_lo _ _ (51831267 / 50000000) E1 ltac:(lra) ltac:(lra)).
  assert (E3 := @double_lo _ _ (107459209 / 100000000) E2 ltac:(lra) ltac:(lra)).
  assert (E4 := @double_lo _ _ (23094963 / 20000000) E3 ltac:(lra) ltac:(lra)).
  assert (E5 := @double_lo _ _ (16668041 / 12500000) E4 ltac:(lra) ltac:(lra)).
  assert (E6 := @double_lo _ _ (88903549 / 50000000) E5 ltac:(lra) ltac:(lra)).
  assert (E7 := @double_lo _ _ (7903841 / 2500000) E6 ltac:(lra) ltac:(lra)).
  assert (E8 := @double_lo _ _ (24988281 / 2500000) E7 ltac:(lra) ltac:(lra)).
  assert (E9 := @double_lo _ _ (9990626997 / 100000000) E8 ltac:(lra) ltac:(lra)).
  assert (E10 := @double_lo _ _ (998126277931 / 100000000) E9 ltac:(lra) ltac:(lra)).
  assert (E11 := @double_lo _ _ 99625606 E10 ltac:(lra) ltac:(lra)).
  assert (E12 := @double_lo _ _ 9925261370867236 E11 ltac:(lra) ltac:(lra)).
  match type of E12 with (_ <= exp ?x)%R => replace x with 37%R in E12 by lra end. lra.
Qed.
Lemma exp_37_hi : (10 * exp 37 <= 9 * 18014398509481984)%R.
Proof.
  assert (E0 : (exp (37 / 4096) <= (4096 / 4059))%R).
  { assert (H := exp_ineq1 (- (37 / 4096)) ltac:(lra)). rewrite exp_Ropp in H. assert (P := exp_pos (37 / 4096)). set (x := exp (37 / 4096)) in *. assert (x * / x = 1)%R by (apply Rinv_r; lra). nra. }
  assert (E1 := @double_hi _ _ (101831419 / 100000000) E0 ltac:(lra)).
  assert (E2 := @double_hi _ _ (103696379 / 100000000) E1 ltac:(lra)).
  assert (E3 := @double_hi _ _ (107529391 / 100000000) E2 ltac:(lra)).
  assert (E4 := @double_hi _ _ (1156257 / 1000000) E3 ltac:(lra)).
  assert (E5 := @double_hi _ _ (66846513 / 50000000) E4 ltac:(lra)).
  assert (E6 := @double_hi _ _ (178738253 / 100000000) E5 ltac:(lra)).
  assert (E7 := @double_hi _ _ (319473631 / 100000000) E6 ltac:(lra)).
  assert (E8 := @double_hi _ _ (102063401 / 10000000) E7 ltac:(lra)).
  assert (E9 := @double_hi _ _ (325529307 / 3125000) E8 ltac:(lra)).
  assert (E10 := @double_hi _ _ (1085125936291 / 100000000) E9 ltac:(lra)).
  assert (E11 := @double_hi _ _ 117749830 E10 ltac:(lra)).
  assert (E12 := @double_hi _ _ 13865022465028900 E11 ltac:(lra)).
  match type of E12 with (exp ?x <= _)%R => replace x with 37%R in E12 by lra end. lra.
Qed.

(** ** The E-step of the samples "a", "ab", over any arithmetic that adds and compares some numbers *)
Opaque max_sample_length.
Lemma long_samples : exists n, max_sample_length = 8 + n.
Proof.
  exists (max_sample_length - 8). enough (8 <= max_sample_length) by lia. Transparent max_sample_length. unfold max_sample_length.
  assert (H : (8 <= 81920)%N) by discriminate. revert H. generalize 81920%N. intros n H. lia.
Qed.
Opaque max_sample_length.
Section Generic.
  Variables (S : Type) (z o fifty s1 s2 x38 x12 t : S) (add sub : S -> S -> S) (ltb : S -> S -> bool) (e l : S -> S) (conv : f64 -> S) (normal : S -> bool) (rnd : nat -> f64).
  Variables v1 v2 : f64.
  Let A := Arith z o fifty add sub ltb e l.
  Hypotheses (Hv1 : conv v1 = s1) (Hv2 : conv v2 = s2).
  Hypotheses (H00 : add z z = z) (H10 : add s1 z = s1) (H01 : add z s1 = s1) (H20 : add s2 z = s2) (H21 : add s2 s1 = x38) (H12 : add s1 s2 = x38) (H380 : add x38 z = x38)
    (H50 : add x38 fifty = x12) (Hto : add t o = o) (H0o : add z o = o) (H0t : add z t = t).
  Hypotheses (S11 : sub s1 s1 = z) (S38 : sub x38 s1 = s2) (L1 : ltb x38 s1 = true) (L2 : ltb x12 s1 = false) (E0 : e z = o) (E2 : e s2 = t) (El : l o = z) (Hn : normal s1 = true).
  Local Ltac evaluate := destruct long_samples as [n Hlong]; unfold e_chunk, A; cbn [e_samples]; rewrite Hlong; clear Hlong; vm_compute;
    rewrite ?Hv1, ?Hv2; repeat (rewrite ?H00, ?H10, ?H01, ?H20, ?H21, ?H12, ?H380, ?S11, ?S38, ?L1, ?H50, ?L2, ?E0, ?E2, ?Hto, ?El, ?H0o, ?H0t, ?Hn); reflexivity.
  Lemma chunk_a : e_chunk A conv normal (PruneCfg 3 f0 1 f0) (model_from (ab_vocab v1 v2 v1)) rnd [[x61]] = Ok [o; z; z].
  Proof. evaluate. Qed.
  Lemma chunk_ab : e_chunk A conv normal (PruneCfg 3 f0 1 f0) (model_from (ab_vocab v1 v2 v1)) rnd [[x61; x62]] = Ok [t; t; o].
  Proof. evaluate. Qed.
End Generic.

(** ** In binary64 *)
Lemma float_eq (a b : f64) : B2SF a = B2SF b -> a = b.
Proof. apply B2SF_inj. Qed.
Lemma succ_1 : succ radix2 (SpecFloat.fexp prec64 emax64) 1 = (1 + / 4503599627370496)%R.
Proof.
  rewrite succ_eq_pos by lra. f_equal. rewrite ulp_neq_0 by lra. unfold cexp. rewrite mag_1. change (SpecFloat.fexp prec64 emax64 1) with (-52)%Z. simpl. lra.
Qed.
Lemma one_format : generic_format radix2 (SpecFloat.fexp prec64 emax64) 1.
Proof. destruct f1_real as [_ <-]. apply generic_format_B2R. Qed.
Lemma rnd_down x : (1 <= x < 1 + / 9007199254740992)%R -> rnd64 x = 1%R.
Proof.
  intros [H1 H2]. apply Rle_antisym; [|now apply rnd_ge_1]. apply round_N_le_midp; [apply (fexp_correct prec64 emax64); exact prec64_gt_0|exact one_format|]. rewrite succ_1. lra.
Qed.
Lemma rnd_up x : (1 + / 9007199254740992 < x)%R -> (1 < rnd64 x)%R.
Proof.
  intros H. apply Rlt_le_trans with (succ radix2 (SpecFloat.fexp prec64 emax64) 1); [rewrite succ_1; lra|].
  apply round_N_ge_midp; [apply (fexp_correct prec64 emax64); exact prec64_gt_0|apply generic_format_succ; [apply (fexp_correct prec64 emax64); exact prec64_gt_0|exact one_format]|].
  rewrite pred_succ; [|apply (fexp_correct prec64 emax64); exact prec64_gt_0|exact one_format]. rewrite succ_1. lra.
Qed.

Local Ltac known := cbv beta; match goal with
  | H : ?a = ?b |- ?a = ?b => exact H
  | |- @eq bool _ _ => vm_compute; reflexivity
  | |- ?x = ?x => exact eq_refl
  | |- _ => apply float_eq; vm_compute; reflexivity end.
(** The frequencies of the E-step depend on the order in which the threads finish, for any accurate [exp] with [exp 0 = 1] and any [ln] with [ln 1 = 0]. *)
Theorem C45_e_step_order : forall expf lnf, accurate_exp expf -> expf f0 = f1 -> lnf f1 = f0 ->
  exists vocab samples r1 r2 x1 x2, map st_value vocab = [[x61]; [x62]; [x61; x62]] /\ samples = [[x61]; [x61; x62]; [x61; x62]] /\
    e_step_result expf lnf 1 (PruneCfg 3 f0 1 f0) (model_from vocab) samples (Ok r1) /\
    e_step_result expf lnf 1 (PruneCfg 3 f0 1 f0) (model_from vocab) samples (Ok r2) /\
    nth_error r1 0 = Some x1 /\ nth_error r2 0 = Some x2 /\ is_finite x1 = true /\ is_finite x2 = true /\ fltb x1 x2 = true.
Proof.
  intros expf lnf Hexp He Hl. set (m1 := f64_of_Z (-1)). set (m37 := f64_of_Z (-37)). set (t := expf m37). set (m38 := f64_of_Z (-38)).
  destruct f1_real as [F1 R1]. destruct (@of_Z_exact (-37) ltac:(lia)) as [F37 R37].
  assert (Ht : is_finite t = true /\ (11 / 10 / 18014398509481984 <= B2R t <= 19 / 20 / 9007199254740992)%R).
  { destruct (Hexp m37 F37 ltac:(unfold m37; rewrite R37; lra)) as (Ft & _ & Et). split; [exact Ft|]. fold t in Et. unfold m37 in Et. rewrite R37 in Et. change (IZR (-37)) with (Ropp 37) in Et. rewrite (exp_Ropp 37) in Et.
    assert (L := exp_37_lo). assert (U := exp_37_hi). assert (P := exp_pos 37). set (x := exp 37) in *. assert (X : (x * / x = 1)%R) by (apply Rinv_r; lra). set (y := (/ x)%R) in *.
    assert (Y : (0 < y)%R) by (unfold y; apply Rinv_0_lt_compat; lra). assert (Y1 : (10 / 9 / 18014398509481984 <= y)%R) by nra. assert (Y2 : (y <= 10 / 11 / 9007199254740992)%R) by nra.
    assert (T : (bpow radix2 (-1074) <= bpow radix2 (-120))%R) by (apply bpow_le; lia). assert (T2 : bpow radix2 (-120) = (/ 1329227995784915872903807060280344576)%R) by (simpl; lra).
    assert (T3 : bpow radix2 (-52) = (/ 4503599627370496)%R) by (simpl; lra). rewrite T3 in Et. apply Rabs_le_inv in Et. nra. }
  destruct Ht as [Ft Rt]. assert (E37 : expf m37 = t) by exact eq_refl.
  assert (Sm : forall a b : f64, (0 <= B2R a <= 2)%R -> (0 <= B2R b <= 2)%R -> (Rabs (B2R a + B2R b) <= huge)%R) by (intros; apply le_huge; rewrite Rabs_pos_eq; lra).
  assert (Fin : forall a b : f64, is_finite a = true -> is_finite b = true -> (0 <= B2R a <= 2)%R -> (0 <= B2R b <= 2)%R -> is_finite (fadd a b) = true).
  { intros a b Fa Fb Ha Hb. apply (@fadd_err a b huge Fa Fb); [now apply Sm|apply Rle_refl]. }
  assert (One : forall a b : f64, is_finite a = true -> is_finite b = true -> (0 <= B2R a)%R -> (0 <= B2R b)%R -> (1 <= B2R a + B2R b < 1 + / 9007199254740992)%R -> fadd a b = f1).
  { intros a b Fa Fb Ha Hb Hab. assert (E : B2R (fadd a b) = 1%R) by (rewrite fadd_rnd; [now apply rnd_down|exact Fa|exact Fb|apply Sm; lra]).
    apply B2R_inj; [|reflexivity|now rewrite R1]. apply is_finite_strict_B2R. rewrite E. lra. }
  assert (Eto : fadd t f1 = f1) by (apply One; [exact Ft|exact F1|lra|lra|rewrite R1; lra]).
  assert (Eot : fadd f1 t = f1) by (apply One; [exact F1|exact Ft|lra|lra|rewrite R1; lra]).
  assert (E0t : fadd f0 t = t).
  { assert (E : B2R (fadd f0 t) = B2R t).
    { rewrite fadd_rnd; [|reflexivity|exact Ft|apply Sm; simpl; lra]. replace (B2R f0 + B2R t)%R with (B2R t) by (simpl; ring). apply round_generic; [apply valid_rnd_N|apply generic_format_B2R]. }
    apply B2R_inj; [apply is_finite_strict_B2R; rewrite E; lra|apply is_finite_strict_B2R; lra|exact E]. }
  destruct (@fadd_err t t (/ 4503599627370496) Ft Ft) as [Ftt Ett]; [rewrite Rabs_pos_eq; lra|apply le_huge; lra|]. unfold ulp_half, tiny in Ett. 
  set (vocab := ab_vocab m1 m37 m1). pose (samples := [[x61]; [x61; x62]; [x61; x62]] : list bytes).
  assert (HC : @chunks bytes (par_chunk_size 1 (@length bytes samples) 8) samples = [[[x61]]; [[x61; x62]]; [[x61; x62]]]) by reflexivity.
  assert (Ca : forall rnd, e_chunk (f64_arith expf lnf) (fun x => x) f_is_normal (PruneCfg 3 f0 1 f0) (model_from vocab) rnd [[x61]] = Ok [f1; f0; f0]).
  { intros rnd. apply chunk_a with (s1 := m1); known. }
  assert (Cab : forall rnd, e_chunk (f64_arith expf lnf) (fun x => x) f_is_normal (PruneCfg 3 f0 1 f0) (model_from vocab) rnd [[x61; x62]] = Ok [t; t; f1]).
  { intros rnd. apply chunk_ab with (s1 := m1) (s2 := m37) (x38 := m38) (x12 := f64_of_Z 12); known. }
  assert (HL : forall i chunk local, nth_error [[[x61]]; [[x61; x62]]; [[x61; x62]]] i = Some chunk -> nth_error [[f1; f0; f0]; [t; t; f1]; [t; t; f1]] i = Some local ->
    e_chunk (f64_arith expf lnf) (fun x => x) f_is_normal (PruneCfg 3 f0 1 f0) (model_from vocab) (fun _ => f0) chunk = Ok local).
  { assert (Inj : forall (X : Type) (a b : X), Some a = Some b -> b = a) by (intros X a b H; now injection H).
    intros [|[|[|i]]] chunk local H1 H2; cbn [nth_error] in H1, H2.
    - apply Inj in H1, H2. rewrite H1, H2. exact (Ca _).
    - apply Inj in H1, H2. rewrite H1, H2. exact (Cab _).
    - apply Inj in H1, H2. rewrite H1, H2. exact (Cab _).
    - destruct i; discriminate. }
  exists vocab, samples. do 4 eexists. split; [reflexivity|]. split; [reflexivity|].
  split; [apply (@e_step_ok _ (f64_arith expf lnf) (fun x => x) f_is_normal 1 (PruneCfg 3 f0 1 f0) (model_from vocab) samples (fun _ _ => f0) [[f1; f0; f0]; [t; t; f1]; [t; t; f1]] [[f1; f0; f0]; [t; t; f1]; [t; t; f1]]); [rewrite HC; exact eq_refl|rewrite HC; exact HL|apply Permutation_refl]|].
  split; [apply (@e_step_ok _ (f64_arith expf lnf) (fun x => x) f_is_normal 1 (PruneCfg 3 f0 1 f0) (model_from vocab) samples (fun _ _ => f0) [[f1; f0; f0]; [t; t; f1]; [t; t; f1]] [[t; t; f1]; [t; t; f1]; [f1; f0; f0]]); [rewrite HC; exact eq_refl|rewrite HC; exact HL|]|].
  { apply Permutation_trans with ([[t; t; f1]; [f1; f0; f0]; [t; t; f1]]); [constructor|constructor; constructor]. }
  split; [reflexivity|]. split; [reflexivity|]. cbn [a_add f64_arith a_zero]. rewrite E0t. replace (fadd f0 f1) with f1 by (apply float_eq; vm_compute; reflexivity). rewrite !Eot.
  assert (Rtt := Rabs_le_inv _ _ Ett). split; [exact F1|]. assert (F2 : is_finite (fadd (fadd t t) f1) = true) by (apply Fin; auto; lra). split; [exact F2|].
  rewrite fltb_finite by assumption. apply Rlt_bool_true. rewrite R1, fadd_rnd; [|exact Ftt|exact F1|apply Sm; rewrite ?R1; lra]. apply rnd_up. rewrite R1. lra.
Qed.
Print Assumptions C45_e_step_order.
(** A case: the correctly rounded functions. *)
Definition ln_64 (x : f64) : f64 := if feqb x f1 then f0 else ln64 x.
Example C45_e_step_order_example : exists vocab r1 r2 x1 x2,
  e_step_result exp64 ln_64 1 (PruneCfg 3 f0 1 f0) (model_from vocab) [[x61]; [x61; x62]; [x61; x62]] (Ok r1) /\
  e_step_result exp64 ln_64 1 (PruneCfg 3 f0 1 f0) (model_from vocab) [[x61]; [x61; x62]; [x61; x62]] (Ok r2) /\
  nth_error r1 0 = Some x1 /\ nth_error r2 0 = Some x2 /\ fltb x1 x2 = true.
Proof.
  assert (E0 : exp64 f0 = f1).
  { destruct (@of_real_spec (exp (B2R f0))) as [F E]; [simpl; rewrite exp_0, Rabs_R1; apply le_huge; lra|]. unfold exp64. destruct f1_real as [_ R1].
    assert (X : B2R (of_real (exp (B2R f0))) = 1%R). { rewrite E. replace (exp (B2R f0)) with 1%R by (simpl; now rewrite exp_0). apply round_generic; [apply valid_rnd_N|exact one_format]. }
    apply B2R_inj; [apply is_finite_strict_B2R; rewrite X; lra|reflexivity|now rewrite X, R1]. }
  assert (El : ln_64 f1 = f0) by (unfold ln_64; replace (feqb f1 f1) with true by (vm_compute; reflexivity); reflexivity).
  destruct (@C45_e_step_order exp64 ln_64 exp64_accurate E0 El) as (vocab & samples & r1 & r2 & x1 & x2 & _ & -> & H1 & H2 & H3 & H4 & _ & _ & H5).
  exists vocab, r1, r2, x1, x2. auto.
Qed.
