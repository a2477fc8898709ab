(** Proofs about the objective of EM: the E-step. *)
From Coq Require Import ZArith Reals Psatz Permutation.
From Verif Require Import Base BaseProofs Model SpecModel RealArith SpecMarginal MarginalProofs PropMarginal SpecPrune EStepProofs SpecDigamma DigammaReal SpecBound BoundReal.
Set Implicit Arguments.
Local Open Scope R_scope.

Lemma weight_of_pos s ids : 0 < weight_of s ids.
Proof. apply exp_pos. Qed.
Lemma sum_minus {X} (f g : X -> R) l : sum (fun x => f x - g x) l = sum f l - sum g l.
Proof. induction l as [|x l IH]; rewrite ?sum_nil, ?sum_cons; lra. Qed.
(** The cuts of a piece: Gibbs' inequality. *)
Lemma gibbs s s' L : sum (fun ids => weight_of s ids / sum (weight_of s) L * (sum s' ids - sum s ids)) L <= ln (sum (weight_of s') L) - ln (sum (weight_of s) L).
Proof.
  destruct L as [|l0 L0]; [rewrite !sum_nil; lra|]. set (L := l0 :: L0). assert (HL : L <> []) by discriminate. clearbody L. clear l0 L0.
  set (Z := sum (weight_of s) L). assert (HZ : 0 < Z) by (apply sum_pos; [intros; apply weight_of_pos|exact HL]).
  assert (HZ' : 0 < sum (weight_of s') L) by (apply sum_pos; [intros; apply weight_of_pos|exact HL]).
  set (d := fun ids => sum s' ids - sum s ids). set (mu := sum (fun ids => weight_of s ids / Z * (sum s' ids - sum s ids)) L).
  assert (H1 : Z * exp mu <= sum (weight_of s') L).
  { assert (Hle : sum (fun ids => exp mu * (weight_of s ids * (1 - mu) + Z * (weight_of s ids / Z * (sum s' ids - sum s ids)))) L <= sum (weight_of s') L).
    { apply sum_le. intros ids _. replace (weight_of s' ids) with (exp mu * (weight_of s ids * exp (d ids - mu))).
      2: { unfold weight_of. rewrite <- !exp_plus. f_equal. unfold d. ring. }
      apply Rmult_le_compat_l; [apply Rlt_le, exp_pos|]. replace (weight_of s ids * (1 - mu) + Z * (weight_of s ids / Z * (sum s' ids - sum s ids))) with (weight_of s ids * (1 + (d ids - mu))) by (unfold d; field; lra).
      apply Rmult_le_compat_l; [apply Rlt_le, weight_of_pos|]. apply exp_ineq1_le. }
    rewrite sum_scal, sum_plus, sum_scal in Hle. fold mu in Hle.
    assert (E : sum (fun x => weight_of s x * (1 - mu)) L = Z * (1 - mu)). { unfold Z. rewrite (Rmult_comm _ (1 - mu)), <- sum_scal. apply sum_ext. intros; ring. }
    rewrite E in Hle. replace (exp mu * (Z * (1 - mu) + Z * mu)) with (Z * exp mu) in Hle by ring. exact Hle. }
  assert (H2 : ln (Z * exp mu) <= ln (sum (weight_of s') L)).
  { destruct H1 as [H1|H1]; [apply Rlt_le, ln_increasing; [apply Rmult_lt_0_compat; [exact HZ|apply exp_pos]|exact H1]|rewrite H1; lra]. }
  rewrite ln_mult, ln_exp in H2 by (exact HZ || apply exp_pos). lra.
Qed.
(** The score of a cut, token by token. *)
Lemma sum_counts (d : N -> R) n ids : Forall (fun id => In id (all_ids n)) ids -> sum d ids = sum (fun i => INR (count_occ N.eq_dec ids i) * d i) (all_ids n).
Proof.
  induction 1 as [|id ids Hid _ IH]; [rewrite sum_nil; symmetry; rewrite <- (Rmult_0_l (sum d (all_ids n))), <- sum_scal; apply sum_ext; intros; simpl; ring|]. rewrite sum_cons, IH.
  assert (Hlt : (N.to_nat id < n)%nat) by (apply in_map_iff in Hid as (k & <- & Hk); apply in_seq in Hk; rewrite Nat2N.id; lia).
  rewrite <- (@sum_single d id n Hlt) at 1. fold (all_ids n). rewrite <- sum_plus. apply sum_ext. intros i _. cbn [count_occ]. destruct (N.eq_dec id i); [rewrite S_INR|]; ring.
Qed.
(** All pieces. *)
Lemma likelihood_step n s s' Lss : in_range n Lss -> sum (fun i => uses_of s Lss i * (s' i - s i)) (all_ids n) <= log_likelihood s' Lss - log_likelihood s Lss.
Proof.
  intros H.
  assert (HL : forall L, Forall (Forall (fun id => In id (all_ids n))) L -> sum (fun i => sum (fun ids => INR (count_occ N.eq_dec ids i) * (weight_of s ids / sum (weight_of s) L)) L * (s' i - s i)) (all_ids n) <= ln (sum (weight_of s') L) - ln (sum (weight_of s) L)).
  { intros L HR. eapply Rle_trans; [|apply gibbs]. apply Req_le. set (Z := sum (weight_of s) L). clearbody Z.
    rewrite (@sum_ext _ (fun ids => weight_of s ids / Z * (sum s' ids - sum s ids)) (fun ids => sum (fun i => INR (count_occ N.eq_dec ids i) * (weight_of s ids / Z) * (s' i - s i)) (all_ids n)) L).
    - rewrite <- (sum_swap (fun i ids => INR (count_occ N.eq_dec ids i) * (weight_of s ids / Z) * (s' i - s i))). apply sum_ext. intros i _. rewrite Rmult_comm, <- sum_scal. apply sum_ext. intros; ring.
    - intros ids Hids. rewrite <- sum_minus. rewrite (@sum_counts (fun i => s' i - s i) n ids (proj1 (Forall_forall _ _) HR _ Hids)). rewrite <- sum_scal. apply sum_ext. intros; ring. }
  assert (G : forall {X} (P : X -> Prop) (a : X -> N -> R) (b b' : X -> R) l, (forall x, P x -> sum (fun i => a x i * (s' i - s i)) (all_ids n) <= b' x - b x) -> Forall P l ->
    sum (fun i => sum (fun x => a x i) l * (s' i - s i)) (all_ids n) <= sum b' l - sum b l).
  { intros X P a b b' l Ha HP. rewrite <- sum_minus. eapply Rle_trans; [|apply sum_le; intros x Hx; apply Ha; exact (proj1 (Forall_forall _ _) HP x Hx)]. apply Req_le.
    rewrite <- (sum_swap (fun i x => a x i * (s' i - s i))). apply sum_ext. intros i _. rewrite Rmult_comm, <- sum_scal. apply sum_ext. intros; ring. }
  unfold uses_of, log_likelihood. apply (G _ _ (fun Ls i => sum (fun L => sum (fun ids => INR (count_occ N.eq_dec ids i) * (weight_of s ids / sum (weight_of s) L)) L) Ls) _ _ Lss (fun Ls HR => G _ _ (fun L i => sum (fun ids => INR (count_occ N.eq_dec ids i) * (weight_of s ids / sum (weight_of s) L)) L) _ _ Ls HL HR) H).
Qed.
(** ** A turn *)
Lemma all_ids_nil n : all_ids n = [] -> n = O.
Proof. destruct n; [reflexivity|discriminate]. Qed.
Lemma beta_step lg n f c s : log_gamma lg -> (forall i, In i (all_ids n) -> / 2 <= f i) -> (forall i, In i (all_ids n) -> / 2 <= c i) -> scores_of 0 n f s ->
  sum (fun i => (c i - f i) * s i) (all_ids n) <= sum (fun i => lg (c i)) (all_ids n) - lg (sum c (all_ids n)) - (sum (fun i => lg (f i)) (all_ids n) - lg (sum f (all_ids n))).
Proof.
  intros HL Hf Hc Hs. destruct n as [|n]; [cbn; unfold sum; simpl; lra|]. assert (Hne : all_ids (S n) <> []) by discriminate. set (l := all_ids (S n)) in *.
  assert (HF := @sum_half N f l Hf Hne). destruct (@digamma_exists (sum f l) ltac:(lra)) as [psi Hpsi].
  assert (Hphi : forall i, In i l -> digamma_at (f i) (s i + psi)).
  { intros i Hi. assert (Hfi := Hf i Hi). destruct (@digamma_exists (f i) ltac:(lra)) as [phi Hphi]. assert (H := Hs i phi psi Hi Hphi Hpsi). assert (H0 := Rabs_pos (s i - (phi - psi))).
    replace (s i + psi) with phi; [exact Hphi|]. apply DigammaReal.Rabs_le_inv in H. lra. }
  eapply Rle_trans; [|exact (@convex N lg f c (fun i => s i + psi) psi l HL Hf Hc Hphi Hpsi Hne)]. apply Req_le, sum_ext. intros; ring.
Qed.
Lemma uses_nonneg s Lss i : 0 <= uses_of s Lss i.
Proof.
  unfold uses_of. apply MarginalProofs.sum_nonneg. intros Ls _. apply MarginalProofs.sum_nonneg. intros L _. apply MarginalProofs.sum_nonneg. intros ids Hids. apply Rmult_le_pos; [apply pos_INR|].
  assert (0 < sum (weight_of s) L) by (apply sum_pos; [intros; apply weight_of_pos|intros ->; destruct Hids]). apply Rlt_le, Rdiv_lt_0_compat; [apply weight_of_pos|assumption].
Qed.
Lemma objective_step lg n f s s' s1 Lss e : log_gamma lg -> in_range n Lss -> (forall i, In i (all_ids n) -> / 2 <= f i) -> scores_of 0 n f s ->
  (forall i, In i (all_ids n) -> Rabs (s1 i - s i) <= e) ->
  let c := uses_of s1 Lss in let f' := fun i => Rmax (c i) (/ 2) in
  objective lg n s f Lss - e * (sum (uses_of s Lss) (all_ids n) + sum c (all_ids n)) - sum (fun i => (f' i - c i) * (s' i - s i)) (all_ids n) <= objective lg n s' f' Lss.
Proof.
  intros HL HR Hf Hs He c f'. set (l := all_ids n) in *.
  assert (H1 := likelihood_step s1 s' HR). assert (H2 := likelihood_step s s1 HR). fold c l in H1. fold l in H2.
  assert (H3 := @beta_step lg n f f' s HL Hf (fun i _ => Rmax_r (c i) (/ 2)) Hs). fold l in H3.
  assert (H4 : - (e * sum (uses_of s Lss) l) <= sum (fun i => uses_of s Lss i * (s1 i - s i)) l).
  { rewrite <- sum_scal. rewrite <- (Rmult_1_l (sum (fun i => e * uses_of s Lss i) l)), Ropp_mult_distr_l, <- sum_scal. apply sum_le. intros i Hi. specialize (He i Hi). apply DigammaReal.Rabs_le_inv in He. assert (H := uses_nonneg s Lss i). nra. }
  assert (H5 : - (e * sum c l) <= sum (fun i => c i * (s i - s1 i)) l).
  { rewrite <- sum_scal. rewrite <- (Rmult_1_l (sum (fun i => e * c i) l)), Ropp_mult_distr_l, <- sum_scal. apply sum_le. intros i Hi. specialize (He i Hi). apply DigammaReal.Rabs_le_inv in He. assert (H := uses_nonneg s1 Lss i). fold c in H. nra. }
  assert (E : sum (fun i => c i * (s' i - s1 i)) l - sum (fun i => c i * (s i - s1 i)) l + sum (fun i => (f' i - f i) * s i) l + sum (fun i => (f' i - c i) * (s' i - s i)) l = sum (fun i => f' i * s' i) l - sum (fun i => f i * s i) l).
  { rewrite <- !sum_minus, <- !sum_plus. apply sum_ext. intros; ring. }
  unfold objective. fold l. lra.
Qed.
(** ** Not more tokens than bytes *)
Lemma cut_length vocab ids s : Cut vocab ids s -> (length ids <= length s)%nat.
Proof. induction 1 as [|id t ids s _ Hv _ IH]; [reflexivity|]. rewrite app_length. cbn [length]. destruct (st_value t); [congruence|]. cbn [length]. lia. Qed.
Lemma uses_total s n Lss (w : list (list nat)) : in_range n Lss -> Forall2 (Forall2 (fun b => Forall (fun ids : list N => (length ids <= b)%nat))) w Lss ->
  sum (uses_of s Lss) (all_ids n) <= INR (list_sum (map list_sum w)).
Proof.
  intros HR HW.
  assert (HL : forall b L, Forall (fun ids : list N => (length ids <= b)%nat) L -> Forall (Forall (fun id => In id (all_ids n))) L ->
    sum (fun i => sum (fun ids => INR (count_occ N.eq_dec ids i) * (weight_of s ids / sum (weight_of s) L)) L) (all_ids n) <= INR b).
  { intros b L Hb HRL. destruct L as [|l0 L0].
    - rewrite (@sum_ext _ _ (fun _ => 0 * 1) (all_ids n)) by (intros; rewrite sum_nil; ring). rewrite sum_scal, Rmult_0_l. apply pos_INR.
    - set (L := l0 :: L0) in *. assert (HZ : 0 < sum (weight_of s) L) by (apply sum_pos; [intros; apply weight_of_pos|discriminate]). clearbody L. set (Z := sum (weight_of s) L) in *.
      rewrite sum_swap. apply Rle_trans with (sum (fun ids => INR b * (weight_of s ids * / Z)) L).
      + apply sum_le. intros ids Hids. rewrite (@sum_ext _ _ (fun i => weight_of s ids / Z * (INR (count_occ N.eq_dec ids i) * 1)) (all_ids n)) by (intros; ring). rewrite sum_scal.
        rewrite <- (@sum_counts (fun _ => 1) n ids (proj1 (Forall_forall _ _) HRL _ Hids)). assert (Hlen := proj1 (Forall_forall _ _) Hb _ Hids). apply le_INR in Hlen.
        replace (sum (fun _ => 1) ids) with (INR (length ids)) by (clear; induction ids as [|i ids IH]; rewrite ?sum_nil, ?sum_cons, <- ?IH; [reflexivity|cbn [length]; rewrite S_INR; ring]).
        rewrite Rmult_comm. apply Rmult_le_compat_r; [|exact Hlen]. apply Rlt_le, Rmult_lt_0_compat; [apply weight_of_pos|apply Rinv_0_lt_compat, HZ].
      + rewrite sum_scal. rewrite (@sum_ext _ (fun x => weight_of s x * / Z) (fun x => / Z * weight_of s x) L) by (intros; ring). rewrite sum_scal. fold Z. rewrite Rinv_l by lra. lra. }
  unfold uses_of. rewrite sum_swap. induction HW as [|ws Ls w Lss HWs HW IH]; [rewrite sum_nil; simpl; lra|]. apply Forall_cons_iff in HR as [HRs HR]. rewrite sum_cons. cbn [map list_sum fold_right]. fold (list_sum (map list_sum w)). rewrite plus_INR.
  apply Rplus_le_compat; [|apply IH, HR]. clear IH HR HW. rewrite sum_swap. induction HWs as [|b L ws Ls Hb _ IH]; [rewrite sum_nil; simpl; lra|]. apply Forall_cons_iff in HRs as [HRL HRs]. rewrite sum_cons. cbn [list_sum fold_right]. fold (list_sum ws). rewrite plus_INR. apply Rplus_le_compat; [now apply HL|apply IH, HRs].
Qed.
