(** Independent vocabulary for the properties of the unigram model: what it
    means to be a token of a vocabulary, to spell a text, to have a score. *)
From Verif Require Import Base F64 Model.
Set Implicit Arguments.

(** [t] is the token with id [id]. *)
Definition token_at (vocab : list scored_token) (id : N) (t : scored_token) : Prop :=
  nth_error vocab (N.to_nat id) = Some t.

(** ... and no token with a greater id has the same bytes. *)
Definition latest (vocab : list scored_token) (id : N) (t : scored_token) : Prop :=
  token_at vocab id t /\
  forall id' t', (id < id')%N -> token_at vocab id' t' -> st_value t' <> st_value t.

(** The tokens named by [ids], written one after the other, are [s]. *)
Inductive Spells (vocab : list scored_token) : list N -> bytes -> Prop :=
| Spells_nil : Spells vocab [] []
| Spells_cons id t ids s :
    token_at vocab id t -> Spells vocab ids s -> Spells vocab (id :: ids) (st_value t ++ s).

(** A cut of [s] into tokens: as [Spells], but only non-empty tokens, each
    named by the greatest id that has these bytes.  (A vocabulary without
    repeated values and without the empty token has no other spellings.) *)
Inductive Cut (vocab : list scored_token) : list N -> bytes -> Prop :=
| Cut_nil : Cut vocab [] []
| Cut_cons id t ids s :
    latest vocab id t -> st_value t <> [] -> Cut vocab ids s ->
    Cut vocab (id :: ids) (st_value t ++ s).

(** The score of a list of ids: token scores added from left to right, in
    binary64, starting from 0. *)
Definition add_score (vocab : list scored_token) (acc : f64) (id : N) : f64 :=
  match nth_error vocab (N.to_nat id) with
  | Some t => fadd acc (st_score t)
  | None => acc
  end.
Definition score_of (vocab : list scored_token) (ids : list N) : f64 :=
  fold_left (add_score vocab) ids f0.

(** Ids and token lengths fit in 32 bits. *)
Definition fits (vocab : list scored_token) : Prop :=
  (N.of_nat (length vocab) < 2 ^ 32)%N /\
  Forall (fun t => (N.of_nat (length (st_value t)) < 2 ^ 32)%N) vocab.

Definition finite_scores (vocab : list scored_token) : Prop :=
  Forall (fun t => f_is_finite (st_score t) = true) vocab.

(** Every byte of [s] is, alone, a token. *)
Definition covers (vocab : list scored_token) (s : bytes) : Prop :=
  Forall (fun b => exists t, In t vocab /\ st_value t = [b]) s.

(** No two tokens with the same bytes; no empty token. *)
Definition distinct_values (vocab : list scored_token) : Prop := NoDup (map st_value vocab).
Definition no_empty_token (vocab : list scored_token) : Prop := Forall (fun t => st_value t <> []) vocab.
