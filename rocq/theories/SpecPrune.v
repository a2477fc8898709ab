(** Independent vocabulary for the E-step: all ways to cut a text into tokens, each with a probability. *)
From Coq Require Import Reals.
From Flocq Require Import IEEE754.BinarySingleNaN.
From Verif Require Import Base F64 Model SpecModel RealArith SpecMarginal.
Set Implicit Arguments.

(** The score of a list of ids as a real number: the sum of the scores of the tokens. *)
Definition real_score (vocab : list scored_token) (ids : list N) : R :=
  sum (fun id => match nth_error vocab (N.to_nat id) with Some t => B2R (st_score t) | None => 0%R end) ids.
(** The probability of a cut, up to a constant factor. *)
Definition cut_weight (vocab : list scored_token) (ids : list N) : R := exp (real_score vocab ids).
(** [L] lists all ways to cut [s] into tokens, each of them once. *)
Definition all_cuts (vocab : list scored_token) (s : bytes) (L : list (list N)) : Prop :=
  NoDup L /\ forall ids, In ids L <-> Cut vocab ids s.
(** How many times the token [id] is used, on average over the cuts [L]. *)
Definition average_uses (vocab : list scored_token) (id : N) (L : list (list N)) : R :=
  (sum (fun ids => INR (count_occ N.eq_dec ids id) * (cut_weight vocab ids / sum (cut_weight vocab) L)) L)%R.
(** A text cut into pieces of [n] bytes; the last piece may be shorter. *)
Definition pieces (n : nat) (s : bytes) (ps : list bytes) : Prop :=
  concat ps = s /\ forall k p, nth_error ps k = Some p -> 1 <= length p <= n /\ (S k < length ps -> length p = n).

(** [l] leads from [a] to [b], each step related by [R]; it has one element more than steps. *)
Definition chain {X : Type} (R : X -> X -> Prop) (l : list X) (a b : X) : Prop :=
  nth_error l 0 = Some a /\ nth_error l (length l - 1) = Some b /\ forall i x y, nth_error l i = Some x -> nth_error l (S i) = Some y -> R x y.
