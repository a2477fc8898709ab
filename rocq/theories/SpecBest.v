(** Independent vocabulary for what rounding does to the choice of the best cut of a text. *)
From Coq Require Import Reals.
From Flocq Require Import BinarySingleNaN.
From Verif Require Import Base F64 Trie Model SpecModel Lattice SpecLattice.
Set Implicit Arguments.

(** The score of a path without rounding: the sum of the scores of its spans as a real number. *)
Definition exact_score (E : list (span f64)) (ks : list nat) : R := fold_right Rplus 0%R (map (fun e => B2R (s_score e)) (spans_of E ks)).
(** [n]^2 * [S] / 2^51: what is lost when [n] numbers of at most [S] are added in binary64, twice. *)
Definition slack (n : nat) (S : R) : R := (INR n * INR n * S / 2251799813685248)%R.
(** The scores of a vocabulary, or of the spans of a lattice, are finite and at most [S] in size. *)
Definition scores_within (vocab : list scored_token) (S : R) : Prop := forall t, In t vocab -> f_is_finite (st_score t) = true /\ (Rabs (B2R (st_score t)) <= S)%R.
Definition spans_within (E : list (span f64)) (S : R) : Prop := forall e, In e E -> f_is_finite (s_score e) = true /\ (Rabs (B2R (s_score e)) <= S)%R.
