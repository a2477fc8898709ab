(** What the expressions of datagen.py are meant to find: long stretches of base64, lists of bytes, and escapes. *)
From Verif Require Import Base.
Set Implicit Arguments.

(** Some text with the property begins here. *)
Definition Begins (U : list N -> Prop) (s : list N) : Prop := exists u rest, U u /\ s = u ++ rest.
(** [Chains U n s l]: [s] read from the left; where a text with [U] begins, as many of them as follow each other are taken.
    [l] has those stretches that consist of at least [n] of them. *)
Inductive Chains (U : list N -> Prop) (n : nat) : list N -> list (list N) -> Prop :=
| Ch_end : Chains U n [] []
| Ch_other c s l : ~ Begins U (c :: s) -> Chains U n s l -> Chains U n (c :: s) l
| Ch_few us s l : us <> [] -> length us < n -> Forall U us -> ~ Begins U s -> Chains U n s l -> Chains U n (List.concat us ++ s) l
| Ch_many us s l : us <> [] -> n <= length us -> Forall U us -> ~ Begins U s -> Chains U n s l -> Chains U n (List.concat us ++ s) (List.concat us :: l).

Definition Digit (c : N) : Prop := (0x30 <= c <= 0x39)%N.
Definition Hex (c : N) : Prop := Digit c \/ (0x41 <= c <= 0x46 \/ 0x61 <= c <= 0x66)%N.
(** A letter, a digit, '+', '/', '=' or a line end. *)
Definition Base64 (c : N) : Prop := Digit c \/ (0x41 <= c <= 0x5A)%N \/ (0x61 <= c <= 0x7A)%N \/ In c [0x2B; 0x2F; 0x3D; 0x0A]%N.
(** \uXXXX *)
Definition Escape (s : list N) : Prop := exists a b c d, s = [0x5C; 0x75; a; b; c; d]%N /\ Hex a /\ Hex b /\ Hex c /\ Hex d.
(** XX, 0xXX or \xXX, and then a comma or white space (or nothing). *)
Definition Byte_entry (space : N -> bool) (s : list N) : Prop :=
  exists pre a b post, s = pre ++ a :: b :: post /\ In pre [[]; [0x30; 0x78]; [0x5C; 0x78]]%N /\ Hex a /\ Hex b /\ (post = [0x2C%N] \/ Forall (fun c => space c = true) post).
(** A list of bytes as it is usually written: 0xXX, 0xXX, *)
Definition usual_list (l : list (N * N)) : list N := flat_map (fun b => [0x30; 0x78; fst b; snd b; 0x2C; 0x20]%N) l.
(** Without the spaces: 0xXX,0xXX, *)
Definition dense_list (l : list (N * N)) : list N := flat_map (fun b => [0x30; 0x78; fst b; snd b; 0x2C]%N) l.

(** [Longest M before rest l]: [l] is found in [rest], which comes after [before].  [M a m b]: the text [m] counts when [a] is before it and [b] after it.
    Of the texts that count, the leftmost is taken, and of these the longest; then the search goes on after it. *)
Inductive Longest (M : list N -> list N -> list N -> Prop) : list N -> list N -> list (list N) -> Prop :=
| Longest_none before rest : (forall a m b, rest = a ++ m ++ b -> ~ M (before ++ a) m b) -> Longest M before rest []
| Longest_found before a m b l : M (before ++ a) m b ->
    (forall a' m' b', a ++ m ++ b = a' ++ m' ++ b' -> M (before ++ a') m' b' -> length a < length a' \/ length a = length a' /\ length m' <= length m) ->
    Longest M (before ++ a ++ m) b l -> Longest M before (a ++ m ++ b) (m :: l).
(** Between [a] and [b] a word begins or ends. *)
Definition Edge (word : N -> bool) (a b : list N) : Prop :=
  match rev a with c :: _ => word c | [] => false end <> match b with c :: _ => word c | [] => false end.
(** [n] bytes with what follows each of them: a comma, or any white space if a word begins or ends after the digits. *)
Inductive Entries (word space : N -> bool) : list N -> nat -> list N -> list N -> Prop :=
| Entries_none a b : Entries word space a 0 [] b
| Entries_more a pre x y post n m b : Edge word a (pre ++ x :: y :: post ++ m ++ b) -> In pre [[]; [0x30; 0x78]; [0x5C; 0x78]]%N -> Hex x -> Hex y ->
    (post = [0x2C%N] \/ Forall (fun c => space c = true) post /\ Edge word (a ++ pre ++ [x; y]) (post ++ m ++ b)) ->
    Entries word space (a ++ pre ++ x :: y :: post) n m b -> Entries word space a (S n) (pre ++ x :: y :: post ++ m) b.
