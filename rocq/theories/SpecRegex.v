(** Regular expressions over characters (Unicode scalar values), and where they match in a text. *)
From Verif Require Import Base.
Set Implicit Arguments.

Inductive re :=
| Empty                                       (* the empty string *)
| One (p : N -> bool)                         (* one character, which satisfies [p] *)
| Look (f : list N -> nat -> bool)            (* nothing, at a position of the text that satisfies [f] *)
| Cat (a b : re)
| Alt (a b : re)
| Rep (min : nat) (max : option nat) (greedy : bool) (a : re).  (* greedy: more is tried before less *)

Definition at_most (k : nat) (max : option nat) : Prop := match max with None => True | Some m => k <= m end.

(** [Match w r i j]: in the text [w], the expression [r] matches the characters from [i] (inclusive) to [j] (exclusive). *)
Inductive Match (w : list N) : re -> nat -> nat -> Prop :=
| M_empty i : i <= length w -> Match w Empty i i
| M_one p i c : nth_error w i = Some c -> p c = true -> Match w (One p) i (S i)
| M_look f i : i <= length w -> f w i = true -> Match w (Look f) i i
| M_cat a b i j k : Match w a i j -> Match w b j k -> Match w (Cat a b) i k
| M_left a b i j : Match w a i j -> Match w (Alt a b) i j
| M_right a b i j : Match w b i j -> Match w (Alt a b) i j
| M_rep min max g a n i j : Iter w a n i j -> min <= n -> at_most n max -> Match w (Rep min max g a) i j
(** [n] matches of [a], one after the other. *)
with Iter (w : list N) : re -> nat -> nat -> nat -> Prop :=
| I_none a i : i <= length w -> Iter w a 0 i i
| I_more a n i j k : Match w a i j -> Iter w a n j k -> Iter w a (S n) i k.

(** [r] matches somewhere in [w]; [r] matches the whole of [w]. *)
Definition Somewhere (w : list N) (r : re) : Prop := exists i j, Match w r i j.
Definition Whole (w : list N) (r : re) : Prop := Match w r 0 (length w).

(** Comments.  With the flag x, a comment goes from '#' to the end of the line.  Either every '#' is in a line that ends, or
    the expression (as a text) never turns on the flag x: "(?", then flags, one of them x. *)
Definition Comments_end (cs : list N) : Prop :=
  (forall a b, cs = a ++ 0x23%N :: b -> In 0x0A%N b)
  \/ ~ exists a fl b, cs = a ++ [0x28; 0x3F]%N ++ fl ++ b /\ In 0x78%N fl /\ Forall (fun c => In c [0x69; 0x6D; 0x73; 0x55; 0x52; 0x78; 0x2D]%N) fl.
(** Two lists without a common element. *)
Definition Apart {A} (a b : list A) : Prop := forall x, In x a -> ~ In x b.
