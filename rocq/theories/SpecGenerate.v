(** Independent vocabulary for the random draws of vocabulary generation. *)
From Verif Require Import Base SpecUtf8.
Set Implicit Arguments.

(** The non-empty starts of a list, shortest first, and its non-empty ends, longest first. *)
Fixpoint heads {X : Type} (l : list X) : list (list X) := match l with [] => [] | x :: l' => [x] :: map (cons x) (heads l') end.
Fixpoint tails {X : Type} (l : list X) : list (list X) := match l with [] => [] | _ :: l' => l :: tails l' end.
(** All stretches of consecutive characters that are at most [max] bytes long; from left to right, and the short ones first. *)
Definition windows (max : nat) (chars : list N) : list bytes :=
  filter (fun x => length x <=? max) (map encode_string (flat_map (@heads N) (tails chars))).

(** [t] occurs [n] times in [s] when each occurrence is looked for after the end of the one before. *)
Inductive Greedy (t : bytes) : bytes -> nat -> Prop :=
| Greedy_none s : (forall pre post, s <> pre ++ t ++ post) -> Greedy t s 0
| Greedy_next pre post n : (forall pre' post', pre ++ t ++ post = pre' ++ t ++ post' -> length pre <= length pre') ->
    Greedy t post n -> Greedy t (pre ++ t ++ post) (S n).
(** The empty string occurs around every character. *)
Definition Occurrences (t s : bytes) (n : nat) : Prop :=
  (t = [] /\ exists cs, Forall scalar cs /\ s = encode_string cs /\ n = S (length cs)) \/ (t <> [] /\ Greedy t s n).

(** The draws for a string that occurs [n] times: [m] draws from number [k] on, up to and including the first that wins. *)
Definition until_won (win : nat -> bool) (k n m : nat) : Prop :=
  m <= n /\ (forall j, S j < m -> win (k + j) = false) /\ (m < n -> exists j, m = S j /\ win (k + j) = true).
