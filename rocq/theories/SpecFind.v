(** Which of the possible matches of an expression is the one that is found: the one a backtracking matcher finds first. *)
From Verif Require Import Base SpecRegex.
Set Implicit Arguments.

(** What remains to be matched: expressions; and, after a turn of a loop that began at [from], the next turns. *)
Inductive todo := Do (r : re) | Again (greedy : bool) (a : re) (from : nat).

(** [Possible w k i]: what is to do can be done from [i] on, in some way.  A loop is left after a turn that matched nothing. *)
Inductive Possible (w : list N) : list todo -> nat -> Prop :=
| P_done i : Possible w [] i
| P_do r k i j : Match w r i j -> Possible w k j -> Possible w (Do r :: k) i
| P_leave g a k i : Possible w k i -> Possible w (Again g a i :: k) i
| P_again g a from k i j : from <> i -> Match w (Rep 0 None g a) i j -> Possible w k j -> Possible w (Again g a from :: k) i.

(** [either w greedy more less i k]: of two ways to go on from [i], [k] is the first one (when greedy, else the second) if it is possible, and the other one else. *)
Definition either (w : list N) (greedy : bool) (more less : list todo) (i : nat) (k : list todo) : Prop :=
  let '(first, second) := if greedy then (more, less) else (less, more) in
  Possible w first i /\ k = first \/ ~ Possible w first i /\ k = second.

(** [Picks w k i j]: [j] is where the first way to do [k] ends, when all of them are tried from [i] on, in order: the left
    alternative before the right one, and more turns of a loop before less if it is greedy. *)
Inductive Picks (w : list N) : list todo -> nat -> nat -> Prop :=
| K_done i : Picks w [] i i
| K_empty k i j : Picks w k i j -> Picks w (Do Empty :: k) i j
| K_one p c k i j : nth_error w i = Some c -> p c = true -> Picks w k (S i) j -> Picks w (Do (One p) :: k) i j
| K_look f k i j : f w i = true -> Picks w k i j -> Picks w (Do (Look f) :: k) i j
| K_cat a b k i j : Picks w (Do a :: Do b :: k) i j -> Picks w (Do (Cat a b) :: k) i j
| K_alt a b k k' i j : either w true (Do a :: k) (Do b :: k) i k' -> Picks w k' i j -> Picks w (Do (Alt a b) :: k) i j
(* at least min + 2, at least one *)
| K_rep_min min max g a k i j : at_most 1 max -> Picks w (Do a :: Do (Rep (S min) (option_map pred max) g a) :: k) i j -> Picks w (Do (Rep (S (S min)) max g a) :: k) i j
| K_rep_one m g a k i j : Picks w (Do a :: Do (Rep 0 (Some m) g a) :: k) i j -> Picks w (Do (Rep 1 (Some (S m)) g a) :: k) i j
| K_plus g a k i j : Picks w (Do a :: Again g a i :: k) i j -> Picks w (Do (Rep 1 None g a) :: k) i j
(* none needed *)
| K_rep_zero g a k i j : Picks w k i j -> Picks w (Do (Rep 0 (Some 0) g a) :: k) i j
| K_rep_some m g a k k' i j : either w g (Do a :: Do (Rep 0 (Some m) g a) :: k) k i k' -> Picks w k' i j -> Picks w (Do (Rep 0 (Some (S m)) g a) :: k) i j
| K_star g a k k' i j : either w g (Do a :: Again g a i :: k) k i k' -> Picks w k' i j -> Picks w (Do (Rep 0 None g a) :: k) i j
(* in a loop *)
| K_leave g a k i j : Picks w k i j -> Picks w (Again g a i :: k) i j
| K_again g a from k k' i j : from <> i -> either w g (Do a :: Again g a i :: k) k i k' -> Picks w k' i j -> Picks w (Again g a from :: k) i j.

(** The match that an expression finds at [i]. *)
Definition Choice (w : list N) (r : re) (i j : nat) : Prop := i <= length w /\ Picks w [Do r] i j.

(** [Finds w r at_end start l]: [l] are the stretches that are found from [start] on.  Each is the choice of [r] at the first place where
    [r] matches; the next one is looked for from its end on.  At the end of the one before ([at_end]) an empty choice
    does not count, and the search goes on at the next character. *)
Inductive Finds (w : list N) (r : re) : bool -> nat -> list (nat * nat) -> Prop :=
| F_none at_end start : (forall i j, start <= i -> ~ Match w r i j) -> Finds w r at_end start []
| F_found (at_end : bool) start i j l : start <= i -> (forall p q, start <= p < i -> ~ Match w r p q) -> Choice w r i j ->
    ~ (at_end = true /\ i = start /\ j = start) -> Finds w r true j l -> Finds w r at_end start ((i, j) :: l)
| F_skip start l : Choice w r start start -> Finds w r false (S start) l -> Finds w r true start l.

(** The maximal stretches of characters with [p]. *)
Inductive Runs (p : N -> bool) : list N -> list (list N) -> Prop :=
| R_none : Runs p [] []
| R_other c cs l : p c = false -> Runs p cs l -> Runs p (c :: cs) l
| R_run cs rest l : cs <> [] -> Forall (fun c => p c = true) cs -> match rest with [] => True | c :: _ => p c = false end -> Runs p rest l ->
    Runs p (cs ++ rest) (cs :: l).
