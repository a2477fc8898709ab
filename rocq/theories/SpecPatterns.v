(** The strings that the patterns of src/regex.rs stand for. *)
From Coq.Strings Require Import String.
From Verif Require Import Base SpecJson Json SpecCli.
Set Implicit Arguments.
Local Open Scope string_scope.
Local Open Scope list_scope.

(** A part of a string: characters of one kind, so many of them at least, and (maybe) at most. *)
Definition part : Type := ((N -> Prop) * nat * option nat)%type.
Inductive Parts : list part -> list N -> Prop :=
| Parts_nil : Parts [] []
| Parts_cons (P : N -> Prop) min max ps cs rest : Forall P cs -> min <= List.length cs -> match max with Some m => List.length cs <= m | None => True end ->
    Parts ps rest -> Parts ((P, min, max) :: ps) (cs ++ rest).
(** One of several shapes. *)
Definition Shaped (shapes : list (list part)) (cs : list N) : Prop := exists ps, In ps shapes /\ Parts ps cs.

Definition within (lo hi c : N) : Prop := (lo <= c <= hi)%N.
Definition Lower : N -> Prop := within 0x61 0x7A.
Definition Upper : N -> Prop := within 0x41 0x5A.
Definition Letter (c : N) : Prop := Lower c \/ Upper c.
Definition Digit : N -> Prop := within 0x30 0x39.
(** The visible ASCII characters that are no letters and no digits. *)
Definition Punct (c : N) : Prop := within 0x21 0x7E c /\ ~ Letter c /\ ~ Digit c.
(** From À to ÿ. *)
Definition Latin1 : N -> Prop := within 0xC0 0xFF.
Definition Chinese (c : N) : Prop := within 0x3400 0x4DBF c \/ within 0x4E00 0x9FFF c.
Definition the (b : byte) (c : N) : Prop := c = Byte.to_N b.

Definition one (P : N -> Prop) : part := (P, 1, Some 1).
Definition maybe (P : N -> Prop) : part := (P, 0, Some 1).
Definition some_of (P : N -> Prop) : part := (P, 1, None).
Definition few (n : nat) (P : N -> Prop) : part := (P, 1, Some n).
Definition letters (s : bytes) : list part := map (fun b => one (the b)) s.

Definition Operators : list bytes := map B
  ["+"; "-"; "*"; "/"; "%"; "&"; "|"; "^"; "!"; "~"; "<"; ">"; "."; "?"; "=";
   "&&"; "||"; "=="; "!="; "<="; ">="; "<<"; ">>"; "++"; "--"; "+="; "-="; "*="; "/="; "%="; "&="; "|="; "^="; "=>"; "->"; ":="; "[]"; "()";
   "!=="; ">>>"; "..."].

Definition pattern_shapes : list (bytes * list (list part)) :=
  [(B "any-char", [[one (fun c => c <> 0x0A%N)]]);
   (B "lowercase-word", [[some_of Lower]]);
   (B "space-lowercase-word", [[maybe (the " "); some_of Lower]]);
   (B "uppercase-word", [[some_of Upper]]);
   (B "space-uppercase-word", [[maybe (the " "); some_of Upper]]);
   (B "capitalized-word", [[one Upper; some_of Lower]]);
   (B "space-capitalized-word", [[maybe (the " "); one Upper; some_of Lower]]);
   (B "word", [[some_of Letter]]);
   (B "space-word", [[maybe (the " "); some_of Letter]]);
   (B "space-english-word", [[maybe (the " "); some_of Letter; one (the "'"); few 2 Letter]]);
   (B "space-french-word", [[maybe (the " "); some_of (fun c => Letter c \/ Latin1 c)]]);
   (B "chinese-word", [[some_of Chinese]]);
   (B "english-contraction", map letters (map B ["'re"; "'ve"; "'s"; "'d"; "'ll"; "'t"; "'m"]));
   (B "space-digit", [[one (the " "); one Digit]]);
   (B "short-number", [[few 3 Digit]]);
   (B "space-short-number", [[one (the " "); few 3 Digit]]);
   (B "short-decimal-number", [[few 3 Digit; one (the "."); one Digit]]);
   (B "space-short-decimal-number", [[one (the " "); few 3 Digit; one (the "."); one Digit]]);
   (B "word-wrapped-in-brackets", [[one (the "["); some_of Letter; one (the "]")]]);
   (B "short-number-wrapped-in-brackets", [[one (the "["); few 3 Digit; one (the "]")]]);
   (B "word-wrapped-in-quotes", let quote := one (fun c => the "'" c \/ the """" c) in [[quote; some_of Letter; quote]]);
   (B "word-wrapped-in-angle-brackets", [[one (the "<"); some_of Letter; one (the ">")]]);
   (B "punct-word", [[one Punct; some_of Letter]]);
   (B "space-punct-word", [[one (the " "); one Punct; some_of Letter]]);
   (B "word-punct", [[one Letter; one Punct]]);
   (B "dot-short-number", [[one (the "."); few 3 Digit]]);
   (B "indent", [[some_of (the " ")]; [some_of (the x09)]]);
   (B "newline-indent", [[one (the x0a); some_of (the " ")]; [one (the x0a); some_of (the x09)]]);
   (B "whitespace", [[some_of (fun c => white c)]]);
   (B "space-punct-space", [[maybe (the " "); one Punct; maybe (the " ")]]);
   (B "repeated-punct", [[some_of Punct]]);
   (B "few-repeated-punct", [[few 4 Punct]]);
   (B "repeated-punct-space", [[some_of (fun c => the " " c \/ Punct c)]]);
   (B "few-repeated-punct-space", [[few 4 (fun c => the " " c \/ Punct c)]]);
   (B "punct-newline", [[some_of Punct; one (the x0a)]]);
   (B "repeated-punct-newline-indent", [[some_of Punct; one (the x0a); some_of (fun c => the " " c \/ the x09 c)]]);
   (B "space-operator-space", map (fun o => [maybe (the " ")] ++ letters o ++ [maybe (the " ")]) Operators)].
