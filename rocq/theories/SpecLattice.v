(** Independent vocabulary for the properties of lattices: occurrences of tokens in a sentence, paths made of them. *)
From Verif Require Import Base F64 Trie Model SpecModel Lattice.
Set Implicit Arguments.

(** The pools that can be obtained with the functions of the pool. *)
Inductive Pool : pool -> Prop :=
| Pool_default : Pool []
| Pool_with_capacity a b : Pool (pool_with_capacity a b)
| Pool_get p v p' : Pool p -> pool_get p = (v, p') -> Pool p'
| Pool_put p v : Pool p -> Pool (pool_put p v).

(** A token put at a position of the sentence. *)
Record span (S : Type) := Span { s_pos : nat; s_id : N; s_len : nat; s_score : S }.
Arguments Span {S}.
Definition s_end {S} (e : span S) : nat := s_pos e + s_len e.

(** The lattices that can be obtained with the functions of lattices: [Lat A s E l] says that [l] is a lattice for the
    sentence [s] into which the spans [E] were inserted one after the other. *)
Inductive Lat {S} (A : arith S) : bytes -> list (span S) -> lattice S -> Prop :=
| Lat_from l0 s p l p' : Pool p -> lattice_from A l0 s p = Ok (l, p') -> Lat A s [] l
| Lat_insert s E l pos id len score l' :
    Lat A s E l -> lattice_insert A l pos id len score = Ok l' -> Lat A s (E ++ [Span pos id len score]) l'
| Lat_viterbi s E l l' r : Lat A s E l -> viterbi A l = Ok (l', r) -> Lat A s E l'
| Lat_nbest s E l n l' r : Lat A s E l -> nbest_result A l n (Ok (l', r)) -> Lat A s E l'.

(** [Path E p q ks]: the spans number [ks] of [E], put one after the other, lead from position [p] to position [q]. *)
Inductive Path {S} (E : list (span S)) : nat -> nat -> list nat -> Prop :=
| Path_nil p : Path E p p []
| Path_cons k e ks q : nth_error E k = Some e -> Path E (s_end e) q ks -> Path E (s_pos e) q (k :: ks).

(** The scores of the spans number [ks], added from left to right, starting from 0. *)
Definition acc {S} (A : arith S) (E : list (span S)) (ks : list nat) : S :=
  fold_left (fun x k => match nth_error E k with Some e => a_add A x (s_score e) | None => x end) ks (a_zero A).

Definition non_empty {S} (E : list (span S)) : Prop := Forall (fun e => 1 <= s_len e) E.

(** Every span begins at 0 or where another one ends; one ends at the end of the sentence. *)
Definition starts_reachable {S} (E : list (span S)) (len : nat) : Prop :=
  (forall e, In e E -> s_pos e = 0 \/ exists e', In e' E /\ s_end e' = s_pos e) /\
  (len = 0 \/ exists e', In e' E /\ s_end e' = len).

(** Every span ends at the end of the sentence or where another one begins; one begins at 0. *)
Definition ends_continued {S} (E : list (span S)) (len : nat) : Prop :=
  (forall e, In e E -> s_end e = len \/ exists e', In e' E /\ s_pos e' = s_end e) /\
  (len = 0 \/ exists e', In e' E /\ s_pos e' = 0).

(** What a result node says about its span. *)
Definition span_of {S} (n : node S) : span S := Span (n_pos n) (n_token_id n) (n_token_len n) (n_score n).

(** [e] is an occurrence in [s] of a non-empty token of the vocabulary (of the latest one with these bytes). *)
Definition Occurs {S} (conv : f64 -> S) (vocab : list scored_token) (s : bytes) (e : span S) : Prop :=
  exists t before after, latest vocab (s_id e) t /\ st_value t <> [] /\ s = before ++ st_value t ++ after /\
    s_pos e = length before /\ s_len e = length (st_value t) /\ s_score e = conv (st_score t).

(** The spans number [ks], and their ids. *)
Definition spans_of {S} (E : list (span S)) (ks : list nat) : list (span S) := flat_map (fun k => match nth_error E k with Some e => [e] | None => [] end) ks.
Definition ids_of {S} (E : list (span S)) (ks : list nat) : list N := map (fun e => s_id e) (spans_of E ks).
