(** Properties C42-C44: forward-backward marginals, in real arithmetic.  [log_sum_exp] ignores a summand that is smaller by
    more than 50 nats: with [n] spans this costs at most a factor [exp (n * exp (-50))], made explicit in every statement. *)
From Coq Require Import Reals Lra Permutation.
From Verif Require Import Base Lattice BaseProofs SpecLattice LatticeProofs RealArith NbestExact PropNbest SpecMarginal MarginalProofs.
Set Implicit Arguments.
Local Open Scope nat_scope.

Lemma ratio_bounds n x y w W : approx n x y -> approx n w W ->
  (exp (- (INR n * epsilon)) * (y / W) <= x / w <= exp (INR n * epsilon) * (y / W))%R.
Proof.
  intros (Hx & H1 & H2) (Hw & H3 & H4). assert (HD := delta_exp n). assert (HD1 := delta_pow n). set (D := (delta ^ n)%R) in *. set (X := exp (INR n * epsilon)) in *.
  assert (HW : (0 < W)%R) by lra. assert (HX : (0 < X)%R) by lra.
  rewrite exp_Ropp. fold X. split.
  - assert (Hy : (y <= x * X)%R) by (apply Rle_trans with (1 := H2), Rmult_le_compat_l; lra).
    apply Rle_trans with (x / W)%R.
    + unfold Rdiv. rewrite <- Rmult_assoc. apply Rmult_le_compat_r; [left; now apply Rinv_0_lt_compat|]. apply Rmult_le_reg_l with X; [exact HX|].
      rewrite <- Rmult_assoc, Rinv_r, Rmult_1_l by lra. lra.
    + unfold Rdiv. apply Rmult_le_compat_l; [lra|]. apply Rinv_le_contravar; lra.
  - assert (HW2 : (W <= w * X)%R) by (apply Rle_trans with (1 := H4), Rmult_le_compat_l; lra).
    apply Rle_trans with (y / w)%R; [unfold Rdiv; apply Rmult_le_compat_r; [left; now apply Rinv_0_lt_compat|lra]|].
    unfold Rdiv. rewrite <- Rmult_assoc, (Rmult_comm X), Rmult_assoc. apply Rmult_le_compat_l; [lra|].
    apply Rmult_le_reg_l with w; [exact Hw|]. rewrite Rinv_r by lra. apply Rmult_le_reg_r with W; [exact HW|]. rewrite Rmult_1_l.
    replace (w * (X * / W) * W)%R with (w * X)%R by (field; lra). exact HW2.
Qed.
Lemma log_bounds n z W : approx n (exp z) W -> (0 <= ln W - z <= INR n * epsilon)%R.
Proof.
  intros (H & H1 & H2). assert (HD := delta_exp n). assert (HD1 := delta_pow n). split.
  - apply Rge_le, Rge_minus, Rle_ge. rewrite <- (ln_exp z). destruct H1 as [H1|<-]; [left; now apply ln_increasing|right; reflexivity].
  - assert (HW : (W <= exp (z + INR n * epsilon))%R) by (rewrite exp_plus; apply Rle_trans with (1 := H2), Rmult_le_compat_l; lra).
    assert (ln W <= z + INR n * epsilon)%R; [|lra]. rewrite <- (ln_exp (z + INR n * epsilon)). destruct HW as [HW| ->]; [left; apply ln_increasing; [lra|exact HW]|right; reflexivity].
Qed.

(** What [populate_marginal] computes on any lattice: it sums over the paths from ANY position where no token ends (not
    only the start of the sentence), and lets them end at any position where no token begins. *)
Definition From_anywhere (E : list (span R)) (len : nat) (ks : list nat) : Prop := exists r, Root E r /\ Path E r len ks.
Definition Anywhere (E : list (span R)) (ks : list nat) : Prop := ks <> [] /\ exists r q, Root E r /\ Sink E q /\ Path E r q ks.

Theorem C42_general : forall s E l expected L M, Lat R_arith s E l -> non_empty E -> (forall e, In e E -> N.to_nat (s_id e) < length expected) ->
  enumerates L (From_anywhere E (length s)) -> enumerates M (Anywhere E) ->
  exists expected' z, populate_marginal R_arith l expected = Ok (expected', z) /\ length expected' = length expected /\
    (0 < sum (weight E) L)%R /\ (0 <= ln (sum (weight E) L) - z <= INR (length E) * epsilon)%R /\
    forall t, N.to_nat t < length expected ->
      let count := (sum (fun ks => occurrences E t ks * weight E ks) M / sum (weight E) L)%R in
      let added := (nth (N.to_nat t) expected' 0 - nth (N.to_nat t) expected 0)%R in
      (exp (- (INR (length E) * epsilon)) * count <= added <= exp (INR (length E) * epsilon) * count)%R.
Proof.
  intros s E l expected L M HL Hne Hid HEL HEM. assert (I := Lat_inv HL Hne). assert (Hin := i_inside I).
  assert (Hid' : forall k, k < length E -> N.to_nat (id E k) < length expected).
  { intros k Hk. destruct (nth_error_lt E Hk) as (e & He). unfold id. rewrite He. apply Hid, (nth_error_In _ _ He). }
  destruct (marginal_spec I Hne expected Hid') as (expected' & z & u & Hrun & Hlen & Hz & Hu & Hadd).
  assert (HZ : sum (weight E) L = F E (length s)).
  { destruct (F_enum Hne Hin (length s)) as [HF1 HF2]. unfold F. apply sum_perm, NoDup_Permutation; [apply HEL|exact HF1|]. intros ks. rewrite HF2. apply HEL. }
  rewrite HZ. exists expected', z. split; [exact Hrun|]. split; [exact Hlen|]. split; [apply (approx_pos Hz)|]. split; [now apply log_bounds|].
  intros t Ht count added. assert (Ha : added = sum (fun k => if N.eq_dec (id E k) t then u k else 0)%R (seq 0 (length E))).
  { unfold added. fold (at_ expected' (N.to_nat t)). fold (at_ expected (N.to_nat t)). rewrite Hadd by exact Ht.
    rewrite (sum_ext _ (fun k => if N.eq_dec (id E k) t then u k else 0)%R); [lra|]. intros k _.
    destruct (N.eq_dec (id E k) t) as [->|Hn]; [now rewrite Nat.eqb_refl|]. destruct (N.to_nat (id E k) =? N.to_nat t) eqn:Heq; [|reflexivity]. apply Nat.eqb_eq in Heq. lia. }
  assert (Hc : count = sum (fun k => if N.eq_dec (id E k) t then F E (pos E k) * exp (scr E k) * B (length s) E (end_ E k) / F E (length s) else 0)%R (seq 0 (length E))).
  { unfold count. rewrite (sum_occurrences Hne Hin t HEM). unfold Rdiv. rewrite Rmult_comm, <- sum_scal. apply sum_ext. intros k _. destruct (N.eq_dec (id E k) t); lra. }
  rewrite Ha, Hc, <- !sum_scal. split; apply sum_le; intros k Hk; apply in_seq in Hk; destruct (N.eq_dec (id E k) t); try lra;
    destruct (Hu k ltac:(lia)) as (x & Hx & ->); destruct (ratio_bounds Hx Hz); assumption.
Qed.
Print Assumptions C42_general.

(** ** C42: every token begins where one ends or at the start, and ends where one begins or at the end. *)
Theorem C42_marginals : forall s E l expected L, Lat R_arith s E l -> non_empty E -> (forall e, In e E -> N.to_nat (s_id e) < length expected) ->
  starts_reachable E (length s) -> ends_continued E (length s) -> enumerates L (Path E 0 (length s)) ->
  exists expected' z, populate_marginal R_arith l expected = Ok (expected', z) /\ length expected' = length expected /\
    (0 < sum (weight E) L)%R /\ (0 <= ln (sum (weight E) L) - z <= INR (length E) * epsilon)%R /\
    forall t, N.to_nat t < length expected ->
      let count := sum (fun ks => occurrences E t ks * (weight E ks / sum (weight E) L))%R L in
      let added := (nth (N.to_nat t) expected' 0 - nth (N.to_nat t) expected 0)%R in
      (exp (- (INR (length E) * epsilon)) * count <= added <= exp (INR (length E) * epsilon) * count)%R.
Proof.
  intros s E l expected L HL Hne Hid HR HC [HN HE]. assert (Hin := i_inside (Lat_inv HL Hne)).
  set (ne := fun ks : list nat => match ks with [] => false | _ => true end).
  destruct (@C42_general s E l expected L (filter ne L) HL Hne Hid) as (expected' & z & H1 & H2 & H3 & H4 & H5).
  - split; [exact HN|]. intros ks. rewrite HE. symmetry. now apply from_root_complete.
  - split; [now apply NoDup_filter|]. intros ks. rewrite filter_In, HE. transitivity (whole E ks); [|reflexivity]. rewrite (whole_complete Hne Hin ks HR HC). destruct ks; simpl; intuition congruence.
  - exists expected', z. do 4 (split; [assumption|]). intros t Ht count added. specialize (H5 t Ht). cbv zeta in H5.
    replace count with (sum (fun ks => occurrences E t ks * weight E ks) (filter ne L) / sum (weight E) L)%R; [exact H5|].
    unfold count, Rdiv. rewrite sum_filter, Rmult_comm, <- sum_scal. apply sum_ext. intros [|k ks] _; simpl; [|lra]. unfold occurrences, ids_of. simpl. lra.
Qed.
Print Assumptions C42_marginals.

(** ** C43 *)
Section Positive.
  Variables (len : nat) (E : list (span R)).
  Hypothesis Hne : non_empty E.
  Hypothesis Hin : Forall (fun e => s_end e <= len) E.
  Lemma F_pos p : (0 < F E p)%R.
  Proof.
    induction p as [p IH] using lt_wf_ind. destruct (ending E p) as [|k0 ks] eqn:Ee; [rewrite F_root by exact Ee; lra|].
    rewrite (F_rec Hne Hin) by congruence. apply sum_pos; [|congruence]. intros k Hk. apply ending_In in Hk as [Hk <-]. apply Rmult_lt_0_compat; [apply exp_pos|].
    apply IH. apply (k_bounds Hne Hin Hk).
  Qed.
  Lemma B_pos p : (0 < B len E p)%R.
  Proof.
    remember (len - p) as d. revert p Heqd. induction d as [d IH] using lt_wf_ind. intros p ->. destruct (starting E p) as [|k0 ks] eqn:Ee; [rewrite B_sink by exact Ee; lra|].
    rewrite (B_rec Hne Hin) by congruence. apply sum_pos; [|congruence]. intros k Hk. apply starting_In in Hk as [Hk <-]. apply Rmult_lt_0_compat; [apply exp_pos|].
    assert (H := k_bounds Hne Hin Hk). apply (IH (len - end_ E k)); [lia|reflexivity].
  Qed.
End Positive.

(** The probability of passing through the span number [k] is in (0, 1], and a token's count is the sum over its spans. *)
Theorem C43_marginals : forall (E : list (span R)) len L, non_empty E -> Forall (fun e => s_end e <= len) E -> starts_reachable E len -> ends_continued E len ->
  enumerates L (Path E 0 len) ->
  let marginal k := (sum (fun ks => if in_dec Nat.eq_dec k ks then weight E ks else 0) L / sum (weight E) L)%R in
  (forall k, k < length E -> (0 < marginal k <= 1)%R) /\
  forall t, sum (fun ks => occurrences E t ks * (weight E ks / sum (weight E) L))%R L =
            sum (fun k => match nth_error E k with Some e => if N.eq_dec (s_id e) t then marginal k else 0 | None => 0 end)%R (seq 0 (length E)).
Proof.
  intros E len L Hne Hin HR HC [HN HE] marginal. set (Z := sum (weight E) L).
  set (ne := fun ks : list nat => match ks with [] => false | _ => true end).
  assert (HM : enumerates (filter ne L) (whole E)).
  { split; [now apply NoDup_filter|]. intros ks. rewrite filter_In, HE, (whole_complete Hne Hin ks HR HC). destruct ks; simpl; intuition congruence. }
  assert (Hthrough : forall k, k < length E -> (marginal k = F E (pos E k) * exp (scr E k) * B len E (end_ E k) / Z)%R).
  { intros k Hk. rewrite <- (sum_through Hne Hin HM Hk). unfold marginal. f_equal. rewrite sum_filter. apply sum_ext. intros [|j ks] _; reflexivity. }
  assert (HL : L <> []).
  { intros ->. destruct (from_root_complete Hne (len := len) [] HR) as [_ _]. assert (H := F_pos Hne Hin len). destruct (F_enum Hne Hin len) as [_ HF]. unfold F in H.
    destruct (rpaths E (S len) len) as [|ks rest] eqn:Er; [rewrite sum_nil in H; lra|]. apply (HE ks). apply (from_root_complete Hne); [exact HR|]. apply HF. now left. }
  assert (HZ : (0 < Z)%R) by (apply sum_pos; [intros ks _; apply weight_pos|exact HL]).
  split.
  - intros k Hk. split.
    + rewrite (Hthrough k Hk). apply Rdiv_lt_0_compat; [|exact HZ]. apply Rmult_lt_0_compat; [apply Rmult_lt_0_compat; [apply (F_pos Hne Hin)|apply exp_pos]|apply (B_pos Hne Hin)].
    + unfold marginal. fold Z. apply Rmult_le_reg_r with Z; [exact HZ|]. unfold Rdiv. rewrite Rmult_assoc, Rinv_l, Rmult_1_r, Rmult_1_l by lra. unfold Z. apply sum_le. intros ks _.
      destruct (in_dec Nat.eq_dec k ks); [lra|left; apply weight_pos].
  - intros t. transitivity (/ Z * sum (fun ks => occurrences E t ks * weight E ks) (filter ne L))%R.
    + rewrite sum_filter, <- sum_scal. apply sum_ext. intros [|j ks] _; simpl; [unfold occurrences, ids_of; simpl; lra|unfold Rdiv; lra].
    + rewrite (sum_occurrences Hne Hin t HM), <- sum_scal. apply sum_ext. intros k Hk. apply in_seq in Hk. destruct (nth_error_lt E (proj2 Hk)) as (e & He). rewrite Hthrough by lia.
      unfold id. rewrite He. destruct (N.eq_dec (s_id e) t); unfold Rdiv; lra.
Qed.
Print Assumptions C43_marginals.

Lemma sum_single (g : N -> R) (i : N) n : N.to_nat i < n -> sum (fun t => g t * (if N.eq_dec i t then 1 else 0))%R (map N.of_nat (seq 0 n)) = g i.
Proof.
  intros Hi. assert (Hs : seq 0 n = seq 0 (N.to_nat i) ++ N.to_nat i :: seq (S (N.to_nat i)) (n - S (N.to_nat i))).
  { replace n with (N.to_nat i + S (n - S (N.to_nat i))) at 1 by lia. rewrite seq_app. reflexivity. }
  rewrite Hs, map_app, sum_app. cbn [map]. rewrite sum_cons, N2Nat.id. destruct (N.eq_dec i i); [|congruence].
  assert (H0 : forall L, ~ In (N.to_nat i) L -> sum (fun t => g t * (if N.eq_dec i t then 1 else 0))%R (map N.of_nat L) = 0%R).
  { induction L as [|x L IH]; [reflexivity|]. intros H. cbn [map]. rewrite sum_cons, IH by (intros Hx; apply H; now right). destruct (N.eq_dec i (N.of_nat x)) as [Hx|]; [|lra]. exfalso. apply H. left. lia. }
  rewrite !H0; [lra|rewrite in_seq; lia|rewrite in_seq; lia].
Qed.
Lemma path_lengths (E : list (span R)) tlen n p q ks : (forall e, In e E -> s_len e = tlen (s_id e) /\ N.to_nat (s_id e) < n) -> Path E p q ks ->
  (sum (fun t => INR (tlen t) * occurrences E t ks) (map N.of_nat (seq 0 n)) + INR p = INR q)%R.
Proof.
  intros Hlen. induction 1 as [p|k e ks q Hk HP IH].
  - assert (H : forall L, sum (fun t => INR (tlen t) * occurrences E t [])%R L = 0%R); [|rewrite H; lra].
    induction L as [|t L IH]; [reflexivity|]. rewrite sum_cons, IH. unfold occurrences, ids_of. simpl. lra.
  - rewrite <- IH. unfold s_end. rewrite plus_INR. destruct (Hlen e (nth_error_In _ _ Hk)) as [H1 H2].
    rewrite (sum_ext _ (fun t => INR (tlen t) * (if N.eq_dec (s_id e) t then 1 else 0) + INR (tlen t) * occurrences E t ks)%R).
    + rewrite sum_plus, (sum_single (fun t => INR (tlen t))) by exact H2. rewrite H1. lra.
    + intros t _. unfold occurrences, ids_of, spans_of. cbn [flat_map]. rewrite Hk. cbn [app map count_occ]. destruct (N.eq_dec (s_id e) t); [rewrite S_INR; lra|lra].
Qed.
(** The counts weighted with the tokens' lengths add up to the length of the sentence. *)
Theorem C43_exact_lengths : forall (E : list (span R)) len L tlen n, enumerates L (Path E 0 len) -> L <> [] ->
  (forall e, In e E -> s_len e = tlen (s_id e) /\ N.to_nat (s_id e) < n) ->
  sum (fun t => INR (tlen t) * sum (fun ks => occurrences E t ks * (weight E ks / sum (weight E) L)) L)%R (map N.of_nat (seq 0 n)) = INR len.
Proof.
  intros E len L tlen n [HN HE] HL Hlen. set (Z := sum (weight E) L).
  assert (HZ : (0 < Z)%R) by (apply sum_pos; [intros ks _; apply weight_pos|exact HL]).
  transitivity (sum (fun ks => sum (fun t => weight E ks / Z * (INR (tlen t) * occurrences E t ks))%R (map N.of_nat (seq 0 n))) L).
  - rewrite sum_swap. apply sum_ext. intros t _. rewrite <- sum_scal. apply sum_ext. intros ks _. lra.
  - rewrite (sum_ext _ (fun ks => (INR len / Z) * weight E ks)%R).
    + rewrite sum_scal. fold Z. field. lra.
    + intros ks Hks. apply HE in Hks. rewrite sum_scal. assert (H := @path_lengths E tlen n 0 len ks Hlen Hks). simpl INR in H. replace (INR len) with (sum (fun t => INR (tlen t) * occurrences E t ks)%R (map N.of_nat (seq 0 n))) by lra.
      unfold Rdiv. lra.
Qed.
Print Assumptions C43_exact_lengths.
Theorem C43_lengths : forall s E l expected tlen expected' z, Lat R_arith s E l -> non_empty E ->
  (forall e, In e E -> s_len e = tlen (s_id e) /\ N.to_nat (s_id e) < length expected) ->
  starts_reachable E (length s) -> ends_continued E (length s) -> populate_marginal R_arith l expected = Ok (expected', z) ->
  let added t := (nth (N.to_nat t) expected' 0 - nth (N.to_nat t) expected 0)%R in
  let counted := sum (fun t => INR (tlen t) * added t)%R (map N.of_nat (seq 0 (length expected))) in
  (exp (- (INR (length E) * epsilon)) * INR (length s) <= counted <= exp (INR (length E) * epsilon) * INR (length s))%R.
Proof.
  intros s E l expected tlen expected' z HL Hne Hlen HR HC Hrun added counted. assert (Hin := i_inside (Lat_inv HL Hne)).
  assert (HE : enumerates (rpaths E (S (length s)) (length s)) (Path E 0 (length s))).
  { destruct (F_enum Hne Hin (length s)) as [H1 H2]. split; [exact H1|]. intros ks. rewrite H2. now apply from_root_complete. }
  set (L := rpaths E (S (length s)) (length s)) in *.
  assert (HL0 : L <> []) by (intros H; assert (HF := F_pos Hne Hin (length s)); unfold F in HF; fold L in HF; rewrite H, sum_nil in HF; lra).
  destruct (@C42_marginals s E l expected L HL Hne (fun e He => proj2 (Hlen e He)) HR HC HE) as (expected2 & z2 & Hrun2 & _ & _ & _ & Hb).
  rewrite Hrun in Hrun2. injection Hrun2 as <- <-. assert (Hx := C43_exact_lengths _ HE HL0 Hlen). cbv zeta in Hb. unfold counted.
  rewrite <- Hx, <- !sum_scal.
  split; apply sum_le; intros t Ht; apply in_map_iff in Ht as (i & <- & Hi); apply in_seq in Hi; (destruct (Hb (N.of_nat i)) as [Hb1 Hb2]; [rewrite Nat2N.id; lia|]); fold (added (N.of_nat i)) in *;
    rewrite <- Rmult_assoc, (Rmult_comm (exp _)), Rmult_assoc; apply Rmult_le_compat_l; try apply pos_INR; assumption.
Qed.
Print Assumptions C43_lengths.
(** What a token with a span gains: more than nothing, at most one per span (up to the cut-off). *)
Theorem C43_gain : forall s E l expected expected' z, Lat R_arith s E l -> non_empty E -> (forall e, In e E -> N.to_nat (s_id e) < length expected) ->
  starts_reachable E (length s) -> ends_continued E (length s) -> populate_marginal R_arith l expected = Ok (expected', z) ->
  forall e, In e E ->
  let added := (nth (N.to_nat (s_id e)) expected' 0 - nth (N.to_nat (s_id e)) expected 0)%R in
  (0 < added <= exp (INR (length E) * epsilon) * INR (count_occ N.eq_dec (map (fun e => s_id e) E) (s_id e)))%R.
Proof.
  intros s E l expected expected' z HL Hne Hid HR HC Hrun e He added. assert (Hin := i_inside (Lat_inv HL Hne)).
  assert (HE : enumerates (rpaths E (S (length s)) (length s)) (Path E 0 (length s))).
  { destruct (F_enum Hne Hin (length s)) as [H1 H2]. split; [exact H1|]. intros ks. rewrite H2. now apply from_root_complete. }
  set (L := rpaths E (S (length s)) (length s)) in *.
  destruct (@C42_marginals s E l expected L HL Hne Hid HR HC HE) as (expected2 & z2 & Hrun2 & _ & _ & _ & Hb).
  rewrite Hrun in Hrun2. injection Hrun2 as <- <-. destruct (C43_marginals Hne Hin HR HC HE) as [Hm Hcount]. cbv zeta in *.
  destruct (Hb (s_id e) (Hid e He)) as [Hb1 Hb2]. fold added in Hb1, Hb2. rewrite Hcount in Hb1, Hb2.
  set (m := fun k : nat => (sum (fun ks : list nat => if in_dec Nat.eq_dec k ks then weight E ks else 0) L / sum (weight E) L)%R) in *. fold m in Hm.
  set (c := sum (fun k => match nth_error E k with Some e0 => if N.eq_dec (s_id e0) (s_id e) then _ else _ | None => _ end) _) in Hb1, Hb2.
  assert (Hc1 : (0 < c)%R).
  { apply In_nth_error in He as (k & Hk). assert (Hlt : k < length E) by (apply nth_error_Some; congruence). unfold c.
    assert (Hs : seq 0 (length E) = seq 0 k ++ k :: seq (S k) (length E - S k)) by (replace (length E) with (k + S (length E - S k)) at 1 by lia; rewrite seq_app; reflexivity).
    rewrite Hs, sum_app, sum_cons, Hk. destruct (N.eq_dec (s_id e) (s_id e)); [|congruence]. assert (Hp := proj1 (Hm k Hlt)). fold (m k).
    assert (Hnn : forall a n, a + n <= length E -> (0 <= sum (fun k => match nth_error E k with Some e0 => if N.eq_dec (s_id e0) (s_id e) then m k else 0 | None => 0 end) (seq a n))%R).
    { intros a n Han. apply sum_nonneg. intros j Hj. apply in_seq in Hj. destruct (nth_error E j); [|lra]. destruct (N.eq_dec _ _); [|lra]. left. apply Hm. lia. }
    assert (H1 := Hnn 0 k ltac:(lia)). assert (H2 := Hnn (S k) (length E - S k) ltac:(lia)). unfold m in *. lra. }
  assert (Hc2 : (c <= INR (count_occ N.eq_dec (map (fun e => s_id e) E) (s_id e)))%R).
  { apply Rle_trans with (sum (fun k => match nth_error E k with Some e0 => if N.eq_dec (s_id e0) (s_id e) then 1 else 0 | None => 0 end)%R (seq 0 (length E))).
    - apply sum_le. intros k Hk. apply in_seq in Hk. destruct (nth_error E k); [|lra]. destruct (N.eq_dec _ _); [|lra]. apply Hm. lia.
    - right. clear. generalize (s_id e) as t. intros t. induction E as [|e0 E' IH]; [reflexivity|]. cbn [length seq map count_occ]. rewrite sum_cons, <- seq_shift, sum_map. cbn [nth_error]. rewrite IH.
      destruct (N.eq_dec (s_id e0) t); [rewrite S_INR; lra|lra]. }
  split.
  - apply Rlt_le_trans with (2 := Hb1). apply Rmult_lt_0_compat; [apply exp_pos|exact Hc1].
  - apply Rle_trans with (1 := Hb2). apply Rmult_le_compat_l; [left; apply exp_pos|exact Hc2].
Qed.
Print Assumptions C43_gain.

(** ** C44 *)
Lemma epsilon_small : (epsilon <= 1 / 51)%R.
Proof.
  unfold epsilon. replace (-50)%R with (- (50))%R by lra. rewrite exp_Ropp. assert (H := exp_ineq1 50 ltac:(lra)). unfold Rdiv. rewrite Rmult_1_l. apply Rinv_le_contravar; lra.
Qed.
Lemma ln_2 : (1 / 2 <= ln 2)%R.
Proof.
  rewrite <- (ln_exp (1 / 2)). left. apply ln_increasing; [apply exp_pos|]. assert (H : (exp (1 / 2) * exp (1 / 2) = exp 1)%R) by (rewrite <- exp_plus; f_equal; lra).
  assert (H1 := exp_le_3). destruct (Rlt_le_dec (exp (1 / 2)) 2) as [Hlt|Hge]; [exact Hlt|]. assert (2 * 2 <= exp (1 / 2) * exp (1 / 2))%R by (apply Rmult_le_compat; lra). lra.
Qed.
Lemma Path_inv (E : list (span R)) p q k ks : Path E p q (k :: ks) -> exists e, nth_error E k = Some e /\ s_pos e = p /\ Path E (s_end e) q ks.
Proof. intros H. inversion H; subst; eauto. Qed.

(** "ab" with the tokens "ab" and "b": "b" starts where no token ends. *)
Definition unreachable (s0 s1 : R) : list (span R) := [Span 0 0%N 2 s0; Span 1 1%N 1 s1].
Lemma unreachable_paths s0 s1 p ks : Path (unreachable s0 s1) p 2 ks <-> p = 0 /\ ks = [0] \/ p = 1 /\ ks = [1] \/ p = 2 /\ ks = [].
Proof.
  assert (H2 : forall ks, Path (unreachable s0 s1) 2 2 ks -> ks = []).
  { intros [|k ks'] H; [reflexivity|]. apply Path_inv in H as (e & He & Hp & _). destruct k as [|[|[|k]]]; try discriminate He; injection He as <-; discriminate. }
  split.
  - destruct ks as [|k ks]; intros H; [inversion H; auto|]. apply Path_inv in H as (e & He & Hp & HP). destruct k as [|[|[|k]]]; try discriminate He; injection He as <-; simpl in Hp; subst p; apply H2 in HP; subst; auto.
  - intros [(-> & ->)|[(-> & ->)|(-> & ->)]]; [|..|constructor].
    + apply (@Path_cons _ (unreachable s0 s1) 0 (Span 0 0%N 2 s0) [] 2 eq_refl). constructor.
    + apply (@Path_cons _ (unreachable s0 s1) 1 (Span 1 1%N 1 s1) [] 2 eq_refl). constructor.
Qed.
(** The only complete path is "ab", but the constant is that of a sentence which also has the path "b". *)
Theorem C44_wrong_constant : forall s0 s1 a b, exists l, Lat R_arith [a; b] (unreachable s0 s1) l /\ (forall ks, Path (unreachable s0 s1) 0 2 ks <-> ks = [0]) /\
  weight (unreachable s0 s1) [0] = exp s0 /\
  forall expected, 2 <= length expected -> exists expected' z, populate_marginal R_arith l expected = Ok (expected', z) /\
    (ln (exp s0 + exp s1) - 2 * epsilon <= z <= ln (exp s0 + exp s1))%R /\ (s0 <= s1 -> s0 + 1 / 4 < z)%R.
Proof.
  intros s0 s1 a b. assert (Hne : non_empty (unreachable s0 s1)) by repeat constructor.
  destruct (Lat_exists R_arith [a; b] Hne) as (l & HL); [repeat constructor|]. exists l. split; [exact HL|]. split; [intros ks; rewrite unreachable_paths; split; [intros [(_ & ->)|[(H & _)|(H & _)]]; [reflexivity|discriminate..]|auto]|].
  assert (HW0 : weight (unreachable s0 s1) [0] = exp s0) by (unfold weight, total; simpl; f_equal; lra).
  assert (HW1 : weight (unreachable s0 s1) [1] = exp s1) by (unfold weight, total; simpl; f_equal; lra). split; [exact HW0|].
  intros expected Hlen. assert (HR0 : Root (unreachable s0 s1) 0) by (intros e [<-|[<-|[]]]; discriminate). assert (HR1 : Root (unreachable s0 s1) 1) by (intros e [<-|[<-|[]]]; discriminate).
  assert (HR2 : ~ Root (unreachable s0 s1) 2) by (intros H; apply (H _ (or_introl eq_refl)); reflexivity).
  assert (HEL : enumerates [[0]; [1]] (From_anywhere (unreachable s0 s1) 2)).
  { split; [repeat constructor; simpl; intuition discriminate|]. intros ks. split.
    - intros [<-|[<-|[]]]; [exists 0|exists 1]; (split; [assumption|]); apply unreachable_paths; auto.
    - intros (r & Hr & HP). apply unreachable_paths in HP as [(-> & ->)|[(-> & ->)|(-> & ->)]]; simpl; tauto. }
  assert (HM : enumerates [[0]; [1]] (Anywhere (unreachable s0 s1))).
  { split; [repeat constructor; simpl; intuition discriminate|]. intros ks.
    assert (HS : forall q, Sink (unreachable s0 s1) q -> forall r, Path (unreachable s0 s1) r q ks -> ks <> [] -> q = 2).
    { intros q Hq r HP Hks. destruct ks as [|k ks _] using rev_ind; [congruence|]. apply Path_split in HP as (m & _ & HP). apply Path_inv in HP as (e & He & _ & HP). inversion HP; subst.
      destruct k as [|[|[|k]]]; try discriminate He; injection He as <-; reflexivity. }
    split.
    - intros [<-|[<-|[]]]; (split; [discriminate|]); [exists 0, 2|exists 1, 2]; (split; [assumption|]); (split; [intros e [<-|[<-|[]]]; discriminate|apply unreachable_paths; auto]).
    - intros (Hks & r & q & Hr & Hq & HP). assert (q = 2) by (eapply HS; eauto). subst q. apply unreachable_paths in HP as [(-> & ->)|[(-> & ->)|(-> & ->)]]; simpl; tauto. }
  destruct (fun H => @C42_general [a; b] (unreachable s0 s1) l expected _ _ HL Hne H HEL HM) as (expected' & z & H1 & _ & _ & H4 & _).
  - intros e [<-|[<-|[]]]; simpl; lia.
  - exists expected', z. split; [exact H1|]. rewrite !sum_cons, sum_nil, HW0, HW1, Rplus_0_r in H4. change (INR (length (unreachable s0 s1))) with 2%R in H4. split; [lra|].
    intros Hle. assert (He := epsilon_small). assert (Hl2 := ln_2). assert (Hge : (ln (2 * exp s0) <= ln (exp s0 + exp s1))%R).
    { assert (Hexp : (exp s0 <= exp s1)%R) by (destruct Hle as [Hlt| ->]; [left; now apply exp_increasing|lra]). assert (H0 := exp_pos s0).
      destruct Hexp as [Hexp|Hexp]; [left; apply ln_increasing; lra|right; f_equal; lra]. }
    rewrite ln_mult, ln_exp in Hge by (try lra; apply exp_pos). lra.
Qed.
Print Assumptions C44_wrong_constant.

(** "ab" with the tokens "ab" and "a": "a" ends where no token begins. *)
Definition dead_end (s0 s1 : R) : list (span R) := [Span 0 0%N 2 s0; Span 0 1%N 1 s1].
Lemma dead_end_paths s0 s1 p q ks : Path (dead_end s0 s1) p q ks <-> p = q /\ ks = [] \/ p = 0 /\ (q = 2 /\ ks = [0] \/ q = 1 /\ ks = [1]).
Proof.
  assert (H2 : forall p q ks, 0 < p -> Path (dead_end s0 s1) p q ks -> ks = [] /\ q = p).
  { intros p' q' [|k ks'] Hlt H; [inversion H; auto|]. apply Path_inv in H as (e & He & Hp & _). destruct k as [|[|[|k]]]; try discriminate He; injection He as <-; simpl in Hp; lia. }
  split.
  - destruct ks as [|k ks]; intros H; [inversion H; auto|]. apply Path_inv in H as (e & He & Hp & HP). right. destruct k as [|[|[|k]]]; try discriminate He; injection He as <-; simpl in Hp; subst p; apply H2 in HP as [-> ->]; unfold s_end; simpl; auto.
  - intros [(-> & ->)|(-> & [(-> & ->)|(-> & ->)])]; [constructor|..].
    + apply (@Path_cons _ (dead_end s0 s1) 0 (Span 0 0%N 2 s0) [] 2 eq_refl). constructor.
    + apply (@Path_cons _ (dead_end s0 s1) 1 (Span 0 1%N 1 s1) [] 1 eq_refl). constructor.
Qed.
(** The only complete path is "ab", but "a" is counted all the same. *)
Theorem C44_dead_end_counted : forall s0 s1 a b, exists l, Lat R_arith [a; b] (dead_end s0 s1) l /\ starts_reachable (dead_end s0 s1) 2 /\ (forall ks, Path (dead_end s0 s1) 0 2 ks <-> ks = [0]) /\
  occurrences (dead_end s0 s1) 1 [0] = 0%R /\
  forall expected, 2 <= length expected -> exists expected' z, populate_marginal R_arith l expected = Ok (expected', z) /\
    (exp (- (2 * epsilon)) * exp (s1 - s0) <= nth 1 expected' 0 - nth 1 expected 0)%R.
Proof.
  intros s0 s1 a b. assert (Hne : non_empty (dead_end s0 s1)) by repeat constructor.
  destruct (Lat_exists R_arith [a; b] Hne) as (l & HL); [repeat constructor|]. exists l. split; [exact HL|].
  split. { split; [intros e [<-|[<-|[]]]; simpl; auto|right; exists (Span 0 0%N 2 s0); split; [now left|reflexivity]]. }
  split. { intros ks. rewrite dead_end_paths. split; [intros [(H & _)|(_ & [(_ & ->)|(H & _)])]; [discriminate|reflexivity|discriminate]|auto]. }
  split; [reflexivity|].
  assert (HW0 : weight (dead_end s0 s1) [0] = exp s0) by (unfold weight, total; simpl; f_equal; lra).
  assert (HW1 : weight (dead_end s0 s1) [1] = exp s1) by (unfold weight, total; simpl; f_equal; lra).
  intros expected Hlen. assert (HR0 : Root (dead_end s0 s1) 0) by (intros e [<-|[<-|[]]]; discriminate).
  assert (HR2 : forall r, Root (dead_end s0 s1) r -> r <> 1 /\ r <> 2). { intros r Hr. split; intros ->; [apply (Hr _ (or_intror (or_introl eq_refl)))|apply (Hr _ (or_introl eq_refl))]; reflexivity. }
  assert (HS : Sink (dead_end s0 s1) 1 /\ Sink (dead_end s0 s1) 2) by (split; intros e [<-|[<-|[]]]; discriminate).
  assert (HEL : enumerates [[0]] (From_anywhere (dead_end s0 s1) 2)).
  { split; [repeat constructor; simpl; tauto|]. intros ks. split.
    - intros [<-|[]]. exists 0. split; [assumption|]. apply dead_end_paths; auto.
    - intros (r & Hr & HP). apply HR2 in Hr. apply dead_end_paths in HP as [(-> & _)|(-> & [(_ & ->)|(H & _)])]; [tauto|now left|discriminate]. }
  assert (HM : enumerates [[0]; [1]] (Anywhere (dead_end s0 s1))).
  { split; [repeat constructor; simpl; intuition discriminate|]. intros ks. split.
    - intros [<-|[<-|[]]]; (split; [discriminate|]); [exists 0, 2|exists 0, 1]; (split; [assumption|]); (split; [apply HS|apply dead_end_paths; auto]).
    - intros (Hks & r & q & Hr & Hq & HP). apply dead_end_paths in HP as [(-> & ->)|(-> & [(-> & ->)|(-> & ->)])]; simpl; tauto. }
  destruct (fun H => @C42_general [a; b] (dead_end s0 s1) l expected _ _ HL Hne H HEL HM) as (expected' & z & H1 & _ & _ & _ & H5).
  - intros e [<-|[<-|[]]]; simpl; lia.
  - exists expected', z. split; [exact H1|]. destruct (H5 1%N) as [H6 _]; [simpl; lia|]. rewrite !sum_cons, !sum_nil, HW0, HW1 in H6. change (INR (length (dead_end s0 s1))) with 2%R in H6.
    change (occurrences (dead_end s0 s1) 1 [0]) with 0%R in H6. change (occurrences (dead_end s0 s1) 1 [1]) with 1%R in H6. change (N.to_nat 1) with 1 in H6.
    replace (exp (s1 - s0)) with ((0 * exp s0 + (1 * exp s1 + 0)) / (exp s0 + 0))%R; [exact H6|]. unfold Rminus. rewrite exp_plus, exp_Ropp. field. apply Rgt_not_eq, exp_pos.
Qed.
Print Assumptions C44_dead_end_counted.

(** ** Examples *)
(** "ab" as "a", "b" or as "ab" (PropNbest.v): the hypotheses of C42 and C43 hold with two paths, of weights exp (-3) and exp (-4). *)
Example C42_example : exists l, Lat R_arith [x61; x62] exn_spans l /\ non_empty exn_spans /\ starts_reachable exn_spans 2 /\ ends_continued exn_spans 2 /\
  enumerates [[0; 1]; [2]] (Path exn_spans 0 2) /\ sum (weight exn_spans) [[0; 1]; [2]] = (exp (-3) + exp (-4))%R /\
  exists expected' z, populate_marginal R_arith l [0%R; 0%R; 0%R] = Ok (expected', z) /\
    (nth 2 expected' 0 <= exp (3 * epsilon) * (exp (-4) / (exp (-3) + exp (-4))))%R.
Proof.
  assert (Hne : non_empty exn_spans) by repeat constructor. destruct (Lat_exists R_arith [x61; x62] Hne) as (l & HL); [repeat constructor|]. exists l. split; [exact HL|]. split; [exact Hne|].
  assert (HR : starts_reachable exn_spans 2).
  { split; [|right; exists (Span 1 1%N 1 (-2)%R); split; [right; now left|reflexivity]]. intros e [<-|[<-|[<-|[]]]]; simpl; auto. right. exists (Span 0 0%N 1 (-1)%R). simpl. auto. }
  assert (HC : ends_continued exn_spans 2).
  { split; [|right; exists (Span 0 2%N 2 (-4)%R); split; [right; right; now left|reflexivity]]. intros e [<-|[<-|[<-|[]]]]; simpl; auto. right. exists (Span 1 1%N 1 (-2)%R). simpl. auto. }
  assert (HE : enumerates [[0; 1]; [2]] (Path exn_spans 0 2)).
  { split; [repeat constructor; simpl; intuition discriminate|]. intros ks. rewrite exn_paths. simpl. intuition auto. }
  assert (HW : weight exn_spans [0; 1] = exp (-3) /\ weight exn_spans [2] = exp (-4)) by (split; unfold weight, total; simpl; f_equal; lra). destruct HW as [HW0 HW1].
  assert (HZ : sum (weight exn_spans) [[0; 1]; [2]] = (exp (-3) + exp (-4))%R) by (rewrite !sum_cons, sum_nil, HW0, HW1; lra).
  split; [exact HR|]. split; [exact HC|]. split; [exact HE|]. split; [exact HZ|].
  destruct (fun H => @C42_marginals [x61; x62] exn_spans l [0%R; 0%R; 0%R] _ HL Hne H HR HC HE) as (expected' & z & H1 & _ & _ & _ & H5).
  - intros e [<-|[<-|[<-|[]]]]; simpl; lia.
  - exists expected', z. split; [exact H1|]. destruct (H5 2%N) as [_ H6]; [simpl; lia|]. rewrite HZ in H6. rewrite !sum_cons, sum_nil, HW0, HW1 in H6. change (N.to_nat 2) with 2 in H6. change (nth 2 [0%R; 0%R; 0%R] 0%R) with 0%R in H6.
    change (occurrences exn_spans 2 [0; 1]) with 0%R in H6. change (occurrences exn_spans 2 [2]) with 1%R in H6. change (INR (length exn_spans)) with (1 + 1 + 1)%R in H6.
    replace (1 + 1 + 1)%R with 3%R in H6 by lra. lra.
Qed.
