(** Exact arithmetic: the functions of lattices over the real numbers. *)
From Coq Require Import Reals Lra.
From Verif Require Import Base Lattice SpecLattice LatticeProofs.
Set Implicit Arguments.
Local Open Scope nat_scope.

(** The operations of src/lattice.rs on real numbers instead of [f64]. *)
Definition Rltb (x y : R) : bool := if Rlt_dec x y then true else false.
Definition R_arith : arith R := {|
  a_zero := 0%R; a_one := 1%R; a_fifty := 50%R; a_add := Rplus; a_sub := Rminus; a_ltb := Rltb; a_exp := exp; a_ln := ln |}.

Lemma Rltb_true x y : Rltb x y = true <-> (x < y)%R.
Proof. unfold Rltb. destruct (Rlt_dec x y); intuition discriminate. Qed.
Lemma Rltb_false x y : Rltb x y = false <-> (y <= x)%R.
Proof. unfold Rltb. destruct (Rlt_dec x y) as [H|H]; split; intros H'; try discriminate; try reflexivity; try lra. Qed.

(** The total score of the spans number [ks]. *)
Definition total (E : list (span R)) (ks : list nat) : R := fold_right Rplus 0%R (map (fun e => s_score e) (spans_of E ks)).

Lemma total_app E a b : total E (a ++ b) = (total E a + total E b)%R.
Proof.
  unfold total, spans_of. rewrite flat_map_app, map_app. induction (map _ (flat_map _ a)) as [|x L IH]; simpl; [lra|]. rewrite IH. lra.
Qed.
Lemma total_cons {E k e} ks : nth_error E k = Some e -> total E (k :: ks) = (s_score e + total E ks)%R.
Proof. intros H. unfold total, spans_of. simpl. now rewrite H. Qed.
Lemma acc_total E ks : acc R_arith E ks = total E ks.
Proof.
  assert (H : forall ks x, fold_left (fun x k => match nth_error E k with Some e => a_add R_arith x (s_score e) | None => x end) ks x = (x + total E ks)%R).
  { induction ks0 as [|k ks0 IH]; intros x; simpl; [unfold total; simpl; lra|]. rewrite IH. destruct (nth_error E k) as [e|] eqn:Ek.
    - rewrite (total_cons _ Ek). simpl. lra.
    - f_equal. unfold total, spans_of. simpl. now rewrite Ek. }
  unfold acc. rewrite H. simpl. lra.
Qed.
Lemma R_ordered : ordered R_arith (fun _ => True) (fun _ => True).
Proof.
  constructor; auto; unfold le; simpl; intros; rewrite ?Rltb_false, ?Rltb_true in *; lra.
Qed.
