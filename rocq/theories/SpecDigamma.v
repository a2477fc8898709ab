(** Independent definition of the digamma function. *)
From Coq Require Import Reals.
Set Implicit Arguments.
Local Open Scope R_scope.

(** [v] is the value at [x] of the digamma function, by Gauss' limit: ln (n + 1) - (1/x + 1/(x+1) + ... + 1/(x+n)). *)
Definition digamma_at (x v : R) : Prop := Un_cv (fun n => ln (INR (S n)) - sum_f_R0 (fun k => / (x + INR k)) n) v.
