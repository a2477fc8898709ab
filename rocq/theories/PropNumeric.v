(** Properties of the arithmetic of pruning (src/prune.rs): C54, C55 and C56. *)
From Coq Require Import ZArith Reals Psatz Sorted.
From Flocq Require Import Core BinarySingleNaN.
From Verif Require Import Base BaseProofs F64 F64Proofs FloatErr Model ModelProofs Prune PruneProofs RealArith SpecMarginal SpecDigamma SpecNumeric DigammaReal DigammaProofs NumericProofs.
Set Implicit Arguments.
Local Open Scope R_scope.

(** ** C54 *)
(** The limit that defines the digamma function exists and is unique for positive arguments; psi (x + 1) = psi x + 1 / x, and psi does not decrease. *)
Theorem C54_exists : forall x, 0 < x -> exists v, digamma_at x v /\ (forall w, digamma_at x w -> w = v) /\ digamma_at (x + 1) (v + / x) /\ forall y w, x <= y -> digamma_at y w -> v <= w.
Proof.
  intros x Hx. destruct (digamma_exists Hx) as [v Hv]. exists v. split; [exact Hv|]. split; [intros w Hw; exact (digamma_unique Hw Hv)|]. split; [now apply digamma_up|].
  intros y w Hy Hw. assert (H := @digamma_relative x y v w ltac:(lra) Hv Hw). lra.
Qed.
Print Assumptions C54_exists.
(** The result of the program is within 6 10^-11 of it, for every logarithm with a relative error of at most 2^-52. *)
Theorem C54_digamma : forall lnf x v, accurate_ln lnf -> is_finite x = true -> / 2 <= B2R x <= bpow radix2 1000 -> digamma_at (B2R x) v ->
  exists d, digamma lnf 7 x = Ok d /\ is_finite d = true /\ Rabs (B2R d - v) <= 6 / 100000000000.
Proof. intros lnf x v Hln Fx Hx Hv. destruct (@digamma_error lnf 7 x v Hln (Nat.le_refl 7) Fx Hx Hv) as (d & H1 & H2 & H3 & _). eauto. Qed.
Print Assumptions C54_digamma.
(** There is such a logarithm: the one that rounds the real logarithm to the nearest number. *)
Theorem C54_ln : exists lnf, accurate_ln lnf /\ forall x, is_finite x = true -> 0 < B2R x -> B2R (lnf x) = round radix2 (SpecFloat.fexp prec64 emax64) ZnearestE (ln (B2R x)).
Proof. exists ln64. split; [exact ln64_accurate|]. intros x Fx Hx. now apply ln64_round. Qed.
Print Assumptions C54_ln.
Example C54_example : exists v d, digamma_at 1 v /\ digamma ln64 7 f1 = Ok d /\ Rabs (B2R d - v) <= 6 / 100000000000.
Proof.
  destruct f1_real as [F E]. destruct (@C54_exists 1 ltac:(lra)) as (v & Hv & _). destruct (@C54_digamma ln64 f1 v ln64_accurate F) as (d & Hd & _ & He).
  - rewrite E. split; [lra|]. assert (H := bpow_le radix2 0 1000 ltac:(lia)). simpl bpow at 1 in H. exact H.
  - now rewrite E.
  - eauto.
Qed.

(** ** C55 *)
(** The M-step succeeds, and the score of every token that goes on is psi (f) - psi (sum of the f), f its frequency or 1/2 if that is more,
    up to 2 10^-10 and 10^-14 for every such token. *)
Theorem C55_m_step : forall lnf m freqs, accurate_ln lnf -> length freqs = length (m_vocab m) -> INR (length freqs) <= 4294967296 ->
  Forall (fun f => is_finite f = true /\ B2R f <= bpow radix2 900) freqs ->
  let used := fun i => Rmax (B2R (nth i freqs f0)) (/ 2) in
  exists v ids, m_step lnf 7 m freqs = Ok v /\ StronglySorted lt ids /\
    (forall i, In i ids <-> exists t, nth_error (m_vocab m) i = Some t /\ (st_keep t = true \/ / 2 <= B2R (nth i freqs f0))) /\
    forall psi, digamma_at (sum used ids) psi ->
      Forall2 (fun i t' => forall phi, digamma_at (used i) phi -> Rabs (B2R (st_score t') - (phi - psi)) <= 2 / 10000000000 + INR (length ids) / 100000000000000) ids v.
Proof. intros lnf m freqs Hln Hl HN HF used. exact (m_step_error m Hln (Nat.le_refl 7) Hl HN HF). Qed.
Print Assumptions C55_m_step.
Lemma sorted_ext l : forall l', StronglySorted lt l -> StronglySorted lt l' -> (forall i, In i l <-> In i l') -> l = l'.
Proof.
  induction l as [|x l IH]; intros [|y l'] H H' HI; [reflexivity|exfalso; apply (HI y); now left|exfalso; apply (HI x); now left|].
  inversion H as [|? ? HS HF]; subst. inversion H' as [|? ? HS' HF']; subst. rewrite Forall_forall in HF, HF'.
  assert (x = y). { assert (Hx := proj1 (HI x) (or_introl eq_refl)). assert (Hy := proj2 (HI y) (or_introl eq_refl)). destruct Hx as [->|Hx]; [reflexivity|]. destruct Hy as [->|Hy]; [reflexivity|]. apply HF' in Hx. apply HF in Hy. lia. }
  subst y. f_equal. apply IH; auto. intros i. split; intros Hi.
  - destruct (proj1 (HI i) (or_intror Hi)) as [->|?]; [apply HF in Hi; lia|assumption].
  - destruct (proj2 (HI i) (or_intror Hi)) as [->|?]; [apply HF' in Hi; lia|assumption].
Qed.
(** Two tokens, used 3 times and not at all; the second is protected. *)
Example C55_example : let m := model_from [ST [x61] f0 false; ST [x62] f0 true] in
  exists a b, m_step ln64 7 m [f64_of_nat 3; f0] = Ok [a; b] /\
    forall p3 ph psum, digamma_at 3 p3 -> digamma_at (/ 2) ph -> digamma_at (7 / 2) psum -> Rabs (B2R (st_score a) - (p3 - psum)) <= 3 / 10000000000 /\ Rabs (B2R (st_score b) - (ph - psum)) <= 3 / 10000000000.
Proof.
  intros m. destruct (@of_nat_exact 3 ltac:(simpl; lra)) as [F3 E3]. replace (INR 3) with 3 in E3 by (simpl; lra).
  destruct (@C55_m_step ln64 m [f64_of_nat 3; f0] ln64_accurate) as (v & ids & Hv & HS & HI & HF).
  - reflexivity.
  - simpl. lra.
  - assert (H := bpow_le radix2 2 900 ltac:(lia)). simpl bpow at 1 in H. constructor; [split; [exact F3|rewrite E3; lra]|]. constructor; [|constructor]. split; [reflexivity|change (B2R f0) with 0; lra].
  - assert (Hids : ids = [0%nat; 1%nat]).
    { apply sorted_ext; [exact HS|repeat constructor; lia|]. intros i. rewrite HI. unfold m. rewrite model_from_vocab. split.
      - intros (t & Ht & _). destruct i as [|[|i]]; simpl; auto. simpl in Ht. destruct i; discriminate.
      - intros [<-|[<-|[]]]; eexists; (split; [reflexivity|]); [right; cbn [nth]; rewrite E3; lra|left; reflexivity]. }
    subst ids. assert (Hs : sum (fun i => Rmax (B2R (nth i [f64_of_nat 3; f0] f0)) (/ 2)) [0%nat; 1%nat] = 7 / 2).
    { unfold sum. cbn [map fold_right nth]. rewrite E3. change (B2R f0) with 0. rewrite Rmax_left, Rmax_right by lra. lra. }
    cbv zeta in HF. replace (sum _ _) with (7 / 2) in HF by (symmetry; exact Hs). assert (HF' := HF). destruct (@digamma_exists (7 / 2) ltac:(lra)) as [p Hp]. specialize (HF' _ Hp). inversion HF' as [|? a ? v' _ HF1]; subst. inversion HF1 as [|? b ? v'' _ HF2]; subst. inversion HF2; subst.
    exists a, b. split; [exact Hv|]. intros p3 ph psum H3 Hh Hsum. specialize (HF _ Hsum). inversion HF as [|? ? ? ? Ha HF3]; subst. inversion HF3 as [|? ? ? ? Hb _]; subst. cbn [nth length] in *. rewrite E3 in Ha. change (B2R f0) with 0 in Hb.
    rewrite Rmax_left in Ha by lra. rewrite Rmax_right in Hb by lra. specialize (Ha _ H3). specialize (Hb _ Hh). replace (INR 2) with 2 in * by (simpl; lra). lra.
Qed.

(** ** C56 *)
(** The loss is the reduction of the log-likelihood per sample, up to a relative error of the order of the square of the number of alternatives times 2^-53. *)
Theorem C56_loss : forall lnf counts vocab_size num_samples n alts x, accurate_ln lnf -> INR (list_sum counts) <= 9007199254740992 -> 1 <= INR n <= INR (list_sum counts) ->
  INR vocab_size <= 4294967296 -> 1 <= INR num_samples <= 9007199254740992 -> INR (length alts) <= 1073741824 ->
  loss lnf counts vocab_size num_samples n alts = Ok x ->
  is_finite x = true /\ Rabs (B2R x - exact_loss counts vocab_size num_samples n alts) <= INR n / INR num_samples * (2000 * (INR (length alts) + 1) ^ 2 * / 9007199254740992).
Proof. intros. now apply (loss_error (lnf := lnf)). Qed.
Print Assumptions C56_loss.
(** There is a loss whenever the alternatives are tokens. *)
Theorem C56_defined : forall lnf counts vocab_size num_samples n alts, Forall (fun a => (N.to_nat a < length counts)%nat) alts -> exists x, loss lnf counts vocab_size num_samples n alts = Ok x.
Proof.
  intros lnf counts V N n alts H. unfold loss. cbv zeta. assert (G : forall f s acc, exists r, alt_logprob lnf counts f s alts acc = Ok r).
  { intros f s. induction H as [|a alts Ha _ IH]; intros acc; [eexists; reflexivity|]. cbn [alt_logprob]. unfold index. destruct (nth_error counts (N.to_nat a)) eqn:E; [apply IH|]. apply nth_error_None in E. lia. }
  destruct (G (f64_of_nat n) (lnf (fadd (f64_of_nat (list_sum counts)) (fmul (f64_of_nat n) (f64_of_nat (V - 1))))) f0) as [r ->]. eexists. reflexivity.
Qed.
Print Assumptions C56_defined.
(** The order in which candidates are kept (C35: the greatest losses first) is the one of the exact losses up to these errors. *)
Theorem C56_order : forall lnf counts vocab_size num_samples n alts x n' alts' x', accurate_ln lnf -> INR (list_sum counts) <= 9007199254740992 -> 1 <= INR n <= INR (list_sum counts) -> 1 <= INR n' <= INR (list_sum counts) ->
  INR vocab_size <= 4294967296 -> 1 <= INR num_samples <= 9007199254740992 -> INR (length alts) <= 1073741824 -> INR (length alts') <= 1073741824 ->
  loss lnf counts vocab_size num_samples n alts = Ok x -> loss lnf counts vocab_size num_samples n' alts' = Ok x' -> fleb x' x = true ->
  exact_loss counts vocab_size num_samples n' alts' <= exact_loss counts vocab_size num_samples n alts +
    INR n / INR num_samples * (2000 * (INR (length alts) + 1) ^ 2 * / 9007199254740992) + INR n' / INR num_samples * (2000 * (INR (length alts') + 1) ^ 2 * / 9007199254740992).
Proof.
  intros lnf counts V N n alts x n' alts' x' Hln HT Hn Hn' HV HN Hk Hk' H H' Hle.
  destruct (@C56_loss lnf counts V N n alts x) as [F E]; auto. destruct (@C56_loss lnf counts V N n' alts' x') as [F' E']; auto.
  rewrite fleb_finite in Hle by assumption. revert Hle. case Rle_bool_spec; [intros Hle _|discriminate]. apply abs_le in E, E'. lra.
Qed.
Print Assumptions C56_order.
(** The loss the comment describes has the new total of the counts: [n] is taken from the token and given to each of its alternatives. *)
Definition meant_loss (counts : list nat) (num_samples n : nat) (alts : list N) : R :=
  exact_loss counts (length alts) num_samples n alts.
(** The program takes the size of the vocabulary for the number of alternatives (src/prune.rs:279), so it may value a token more that is worth less:
    of two tokens used once, one has two alternatives that are not used, the other three that are used twice. *)
Definition exw_counts : list nat := [1; 0; 0; 1; 2; 2; 2]%nat ++ repeat 0%nat 250.
Theorem C56_alternatives_refuted : exists counts n alts x n' alts' x', 
  loss ln64 counts (length counts) 1 n alts = Ok x /\ loss ln64 counts (length counts) 1 n' alts' = Ok x' /\
  meant_loss counts 1 n' alts' + 1 / 2 < meant_loss counts 1 n alts /\ fltb x x' = true /\ B2R x + 1 < B2R x'.
Proof.
  assert (Hi : forall alts, Forall (fun a => (N.to_nat a < 7)%nat) alts -> Forall (fun a => (N.to_nat a < length exw_counts)%nat) alts).
  { intros alts H. eapply Forall_impl; [|exact H]. intros a Ha. unfold exw_counts. rewrite app_length, repeat_length. simpl in *. lia. }
  destruct (@C56_defined ln64 exw_counts 257 1 1 [1%N; 2%N]) as [x Hx]; [apply Hi; repeat constructor; simpl; lia|].
  destruct (@C56_defined ln64 exw_counts 257 1 1 [4%N; 5%N; 6%N]) as [x' Hx']; [apply Hi; repeat constructor; simpl; lia|].
  exists exw_counts, 1%nat, [1%N; 2%N], x, 1%nat, [4%N; 5%N; 6%N], x'. change (length exw_counts) with 257%nat. split; [exact Hx|]. split; [exact Hx'|].
  assert (HS : INR (list_sum exw_counts) = 8) by (change (list_sum exw_counts) with 8%nat; simpl; lra).
  assert (H257 : INR 257 = 257) by (rewrite INR_IZR_INZ; reflexivity). assert (H256 : INR (257 - 1) = 256) by (rewrite INR_IZR_INZ; reflexivity).
  destruct (@C56_loss ln64 exw_counts 257 1 1 [1%N; 2%N] x ln64_accurate) as [F E]; auto; try (rewrite ?HS, ?H257; simpl; lra).
  destruct (@C56_loss ln64 exw_counts 257 1 1 [4%N; 5%N; 6%N] x' ln64_accurate) as [F' E']; auto; try (rewrite ?HS, ?H257; simpl; lra).
  unfold meant_loss. unfold exact_loss in *. cbv zeta in *. rewrite HS, H256 in *. unfold sum in *. cbn [map fold_right length Nat.sub] in *.
  change (nth (N.to_nat 1) exw_counts 0%nat) with 0%nat in *. change (nth (N.to_nat 2) exw_counts 0%nat) with 0%nat in *.
  change (nth (N.to_nat 4) exw_counts 0%nat) with 2%nat in *. change (nth (N.to_nat 5) exw_counts 0%nat) with 2%nat in *. change (nth (N.to_nat 6) exw_counts 0%nat) with 2%nat in *.
  replace (INR 3) with 3 in * by (simpl; lra). replace (INR 2) with 2 in * by (simpl; lra). change (INR 1) with 1 in *. change (INR 0) with 0 in *.
  replace ((0 + 1) / (8 + 1 * 1)) with (/ 9) by lra. replace ((2 + 1) / (8 + 1 * 2)) with (/ (10 / 3)) by lra.
  replace ((0 + 1) / (8 + 1 * 256)) with (/ 264) in * by lra. replace ((2 + 1) / (8 + 1 * 256)) with (/ 88) in * by lra.
  rewrite !ln_Rinv in * by lra.
  assert (Hmid : ln 2 + 3 * ln (10 / 3) < 2 * ln 9).
  { replace (ln 2 + 3 * ln (10 / 3)) with (ln (2 * ((10 / 3) * ((10 / 3) * (10 / 3))))) by (rewrite !ln_mult by lra; lra).
    replace (2 * ln 9) with (ln (9 * 9)) by (rewrite ln_mult by lra; lra). apply ln_increasing; lra. }
  assert (Hl2 : 1 / 2 < ln 2) by (generalize ln_lt_2; lra).
  assert (H88 : ln 264 * 2 + 1 + 1 / 8 < ln 88 * 3).
  { assert (H : 1 + 1 / 8 < ln 88 * 3 - ln 264 * 2); [|lra].
    replace (ln 88 * 3 - ln 264 * 2) with (ln (88 / 9)).
    2: { replace 264 with (88 * 3) by lra. rewrite ln_mult by lra. unfold Rdiv. rewrite ln_mult, ln_Rinv by lra. replace (ln 9) with (ln 3 * 2) by (replace 9 with (3 * 3) by lra; rewrite ln_mult by lra; lra). lra. }
    assert (He : exp 2 < 88 / 9) by (replace 2 with (1 + 1) by lra; rewrite exp_plus; generalize exp_le_3 (exp_pos 1); nra).
    apply ln_increasing in He; [rewrite ln_exp in He; lra|apply exp_pos]. }
  apply abs_le in E, E'.
  split; [lra|]. split; [|lra]. rewrite fltb_finite by assumption. case Rlt_bool_spec; [reflexivity|]. intros H. exfalso. lra.
Qed.
Print Assumptions C56_alternatives_refuted.
(** "ab" occurs 8 times, "a" 4 times, "b" 4 times, in one sample; "ab" would be replaced by "a" "b": ln (8/16) - ln (12/32) - ln (12/32). *)
Example C56_example : exists x, loss ln64 [8%nat; 4%nat; 4%nat] 3 1 8 [1%N; 2%N] = Ok x /\ Rabs (B2R x - 8 * (ln (8 / 16) - 2 * ln (12 / 32))) <= / 10000000000.
Proof.
  destruct (@C56_defined ln64 [8%nat; 4%nat; 4%nat] 3 1 8 [1%N; 2%N]) as [x Hx]; [repeat constructor; simpl; lia|]. exists x. split; [exact Hx|].
  destruct (@C56_loss ln64 [8%nat; 4%nat; 4%nat] 3 1 8 [1%N; 2%N] x ln64_accurate) as [_ E]; auto; try (simpl; lra).
  unfold exact_loss in E. cbv zeta in E. unfold sum in E. cbn [map fold_right nth list_sum N.to_nat Pos.to_nat Pos.iter_op Nat.add Nat.sub length] in E.
  change (Pos.to_nat 1) with 1%nat in E. change (Pos.to_nat 2) with 2%nat in E. cbv iota in E.
  replace (INR 8) with 8 in E by (simpl; lra). replace (INR 16) with 16 in E by (simpl; lra). replace (INR 4) with 4 in E by (simpl; lra). replace (INR 2) with 2 in E by (simpl; lra). replace (INR 1) with 1 in E by reflexivity.
  apply abs_le in E. replace (12 / 32) with ((4 + 8) / (16 + 8 * 2)) by lra. apply Rabs_le. lra.
Qed.
