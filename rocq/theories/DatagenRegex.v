(** scripts/datagen.py:66-71: the expressions of the filters, and what [findall] of Python finds. *)
From Verif Require Import Base SpecRegex Regex Find.
Set Implicit Arguments.

(** [Pattern.findall] of an expression without groups that never matches nothing: as [find_iter] of the regex crate, the stretches that a
    backtracking matcher finds, from left to right. *)
Definition findall (r : re) (text : list N) : list (list N) := map (slice text) (find_all text r).
(** [[0-9a-fA-F]] *)
Definition hex (c : N) : bool := ((0x30 <=? c) && (c <=? 0x39) || (0x61 <=? c) && (c <=? 0x66) || (0x41 <=? c) && (c <=? 0x46))%N.
Definition char (a : N) : re := One (N.eqb a).

(** scripts/datagen.py:67: [[a-zA-Z0-9+/\n=]{64,}] *)
Definition base64 (c : N) : bool :=
  ((0x61 <=? c) && (c <=? 0x7A) || (0x41 <=? c) && (c <=? 0x5A) || (0x30 <=? c) && (c <=? 0x39) || (c =? 0x2B) || (c =? 0x2F) || (c =? 0x0A) || (c =? 0x3D))%N.
Definition base64_regex : re := Rep 64 None true (One base64).

Section Python.
  (** [\w] and [\s] of Python: tables of Unicode. *)
  Variables (word space : N -> bool).
  Definition at_boundary (w : list N) (i : nat) : bool := word_boundary word w i.
  (** scripts/datagen.py:68: [(?:\b(?:0x|\\x)?[0-9a-fA-F]{2}(?:,|\b\s* )){8,}] (without the space) *)
  Definition bytes_regex : re :=
    Rep 8 None true
      (Cat (Look at_boundary)
      (Cat (Rep 0 (Some 1) true (Alt (Cat (char 0x30) (char 0x78)) (Cat (char 0x5C) (char 0x78))))
      (Cat (Rep 2 (Some 2) true (One hex))
           (Alt (char 0x2C) (Cat (Look at_boundary) (Rep 0 None true (One space))))))).
  (** scripts/datagen.py:69: [(?:\\u[0-9a-fA-F]{4}){8,}] *)
  Definition escapes_regex : re := Rep 8 None true (Cat (char 0x5C) (Cat (char 0x75) (Rep 4 (Some 4) true (One hex)))).
  (** scripts/datagen.py:66-71. *)
  Definition regexes : list (list N -> list (list N)) := map findall [base64_regex; bytes_regex; escapes_regex].
End Python.
