(** Independent vocabulary for marginals: sums over all paths. *)
From Coq Require Import Reals.
From Verif Require Import Base Lattice SpecLattice RealArith.
Set Implicit Arguments.
Local Open Scope nat_scope.

(** The sum of [f] over a list. *)
Definition sum {X : Type} (f : X -> R) (L : list X) : R := fold_right Rplus 0%R (map f L).
(** [L] lists the paths with the property [P], each of them once. *)
Definition enumerates (L : list (list nat)) (P : list nat -> Prop) : Prop := NoDup L /\ forall ks, In ks L <-> P ks.
(** The weight of the spans number [ks]: the product of their probabilities. *)
Definition weight (E : list (span R)) (ks : list nat) : R := exp (total E ks).
(** How often the token [id] occurs among the spans number [ks]. *)
Definition occurrences (E : list (span R)) (id : N) (ks : list nat) : R := INR (count_occ N.eq_dec (ids_of E ks) id).

(** Positions where no span ends (0 is one), where no span begins (the end of the sentence is one). *)
Definition Root (E : list (span R)) (p : nat) : Prop := forall e, In e E -> s_end e <> p.
Definition Sink (E : list (span R)) (p : nat) : Prop := forall e, In e E -> s_pos e <> p.

(** The relative error of one step of the cut-off of [log_sum_exp]. *)
Definition epsilon : R := exp (-50).
