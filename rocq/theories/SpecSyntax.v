(** The syntax of regular expressions, as the documentation of the regex crate describes it, and what it means.

    [Alts]: a text, the expression of SpecRegex.v it stands for.  The grammar leaves out the flags x and u, blanks inside of
    braces, and what need not be escaped in a class only because of what comes after it (a dash, "&", "~", "^"). *)
From Coq.Strings Require Import String.
From Verif Require Import Base Utf8 SpecUtf8 SpecJson SpecRegex.
Set Implicit Arguments.
Local Open Scope list_scope.

(** The characters of a text in ASCII. *)
Definition T (s : string) : list N := map bN (B s).
Definition C (b : byte) : N := bN b.
Definition LF : N := 0x0A.
Definition CR : N := 0x0D.

(** The flags i, m, s, U, R. *)
Record mode := Mode { ignore_case : bool; multi_line : bool; dot_all : bool; swap_greed : bool; crlf : bool }.
Definition plain : mode := Mode false false false false false.

(** [p] decides [P]. *)
Definition Is (p : N -> bool) (P : N -> Prop) : Prop := forall c, p c = true <-> P c.
Definition At (f : list N -> nat -> bool) (P : list N -> nat -> Prop) : Prop := forall w i, f w i = true <-> P w i.

(** ** Numbers *)
Definition Digit (d x : N) : Prop :=
  (d = 0x30 + x /\ x < 10 \/ 10 <= x < 16 /\ (d = 0x41 + (x - 10) \/ d = 0x61 + (x - 10)))%N.
Inductive Numeral (base : N) : list N -> N -> Prop :=
| N_none : Numeral base [] 0
| N_digit ds n d x : Numeral base ds n -> Digit d x -> (x < base)%N -> Numeral base (ds ++ [d]) (base * n + x).

(** ** Characters *)
Definition Scalar (c : N) : Prop := (c < 0xD800 \/ 0xE000 <= c <= 0x10FFFF)%N.
Definition Alnum (c : N) : Prop := (0x30 <= c <= 0x39 \/ 0x41 <= c <= 0x5A \/ 0x61 <= c <= 0x7A)%N.
(** After a backslash: what stands for a character. *)
Inductive Escaped : list N -> N -> Prop :=
| E_punctuation c : (c < 128)%N -> ~ Alnum c -> ~ In c (T "<>") -> Escaped [c] c
| E_named l c : In (l, c) [(C "a", 0x07); (C "t", 0x09); (C "n", 0x0A); (C "v", 0x0B); (C "f", 0x0C); (C "r", 0x0D)]%N -> Escaped [l] c
| E_hex l k ds c : In (l, k) [(C "x", 2); (C "u", 4); (C "U", 8)] -> List.length ds = k -> Numeral 16 ds c -> Scalar c -> Escaped (l :: ds) c
| E_brace l ds c : In l (T "xuU") -> ds <> [] -> Numeral 16 ds c -> Scalar c -> Escaped ([l] ++ T "{" ++ ds ++ T "}") c.

(** ** Places *)
Definition Before (P : N -> Prop) (w : list N) (i : nat) : Prop := exists k c, i = S k /\ nth_error w k = Some c /\ P c.
Definition After (P : N -> Prop) (w : list N) (i : nat) : Prop := exists c, nth_error w i = Some c /\ P c.
(** ^ and $: the text, or with the flag m the lines, which end in LF; with the flag R they end in CR, LF or CR LF. *)
Definition Starts (m : mode) (w : list N) (i : nat) : Prop :=
  i = 0 \/ multi_line m = true /\ (Before (eq LF) w i \/ crlf m = true /\ Before (eq CR) w i /\ ~ After (eq LF) w i).
Definition Ends (m : mode) (w : list N) (i : nat) : Prop :=
  i = List.length w \/
  multi_line m = true /\ (After (eq LF) w i /\ ~ (crlf m = true /\ Before (eq CR) w i) \/ crlf m = true /\ After (eq CR) w i).
(** The dot. *)
Definition Any (m : mode) (c : N) : Prop := dot_all m = true \/ c <> LF /\ ~ (crlf m = true /\ c = CR).

(** White_Space of Unicode. *)
Definition spaces : list N :=
  [0x09; 0x0A; 0x0B; 0x0C; 0x0D; 0x20; 0x85; 0xA0; 0x1680; 0x2000; 0x2001; 0x2002; 0x2003; 0x2004; 0x2005; 0x2006; 0x2007; 0x2008; 0x2009;
   0x200A; 0x2028; 0x2029; 0x202F; 0x205F; 0x3000]%N.
(** [:name:] *)
Definition Lower (c : N) : Prop := (0x61 <= c <= 0x7A)%N.
Definition Upper (c : N) : Prop := (0x41 <= c <= 0x5A)%N.
Definition Decimal (c : N) : Prop := (0x30 <= c <= 0x39)%N.
Definition Graphic (c : N) : Prop := (0x20 < c < 0x7F)%N.
Inductive Posix : list N -> (N -> Prop) -> Prop :=
| X_alnum : Posix (T "alnum") (fun c => Lower c \/ Upper c \/ Decimal c)
| X_alpha : Posix (T "alpha") (fun c => Lower c \/ Upper c)
| X_ascii : Posix (T "ascii") (fun c => (c < 128)%N)
| X_blank : Posix (T "blank") (fun c => In c [0x09; 0x20]%N)
| X_cntrl : Posix (T "cntrl") (fun c => (c < 0x20 \/ c = 0x7F)%N)
| X_digit : Posix (T "digit") Decimal
| X_graph : Posix (T "graph") Graphic
| X_lower : Posix (T "lower") Lower
| X_print : Posix (T "print") (fun c => Graphic c \/ c = 0x20%N)
| X_punct : Posix (T "punct") (fun c => Graphic c /\ ~ Alnum c)
| X_space : Posix (T "space") (fun c => In c [0x09; 0x0A; 0x0B; 0x0C; 0x0D; 0x20]%N)
| X_upper : Posix (T "upper") Upper
| X_word : Posix (T "word") (fun c => Alnum c \/ c = C "_")
| X_xdigit : Posix (T "xdigit") (fun c => In c (T "0123456789abcdefABCDEF")).

(** ** Flags *)
(** [fl] switches from [m] to [m']: letters that are switched on, then, after a dash, letters that are switched off. *)
Definition switched (on off : list N) (letter : byte) (old : bool) : bool :=
  if existsb (N.eqb (bN letter)) on then true else if existsb (N.eqb (bN letter)) off then false else old.
Inductive Switch : list N -> mode -> mode -> Prop :=
| S_switch on off m : NoDup (on ++ off) -> (forall c, In c (on ++ off) -> In c (T "imsUR")) ->
    Switch (on ++ match off with [] => [] | _ => T "-" ++ off end) m
      (Mode (switched on off "i" (ignore_case m)) (switched on off "m" (multi_line m)) (switched on off "s" (dot_all m))
            (switched on off "U" (swap_greed m)) (switched on off "R" (crlf m))).

(** ** Repetitions: how often. *)
Inductive Count : list N -> nat -> option nat -> Prop :=
| Q_maybe : Count (T "?") 0 (Some 1)
| Q_star : Count (T "*") 0 None
| Q_plus : Count (T "+") 1 None
| Q_exactly ds n : ds <> [] -> Numeral 10 ds n -> (n < 2 ^ 32)%N -> Count (T "{" ++ ds ++ T "}") (N.to_nat n) (Some (N.to_nat n))
| Q_least ds n : ds <> [] -> Numeral 10 ds n -> (n < 2 ^ 32)%N -> Count (T "{" ++ ds ++ T ",}") (N.to_nat n) None
| Q_between ds n es k : ds <> [] -> Numeral 10 ds n -> es <> [] -> Numeral 10 es k -> (n <= k < 2 ^ 32)%N ->
    Count (T "{" ++ ds ++ T "," ++ es ++ T "}") (N.to_nat n) (Some (N.to_nat k)).

Section Syntax.
  (** The tables of Unicode. *)
  Variable same_letter : N -> list N.
  Variables (unicode_digit unicode_word : N -> bool).
  Variable unicode_class : list N -> option (N -> bool).
  Variables (alphabetic alphanumeric : N -> bool).

  (** With the flag i, a character also matches if one does that differs only in case. *)
  Definition Folded (m : mode) (P : N -> Prop) (c : N) : Prop := P c \/ ignore_case m = true /\ exists d, In d (same_letter c) /\ P d.

  (** After a backslash: what stands for one of several characters. *)
  Definition Named (name t : list N) : Prop := t = T "{" ++ name ++ T "}" /\ ~ In (C "}") name \/ t = name /\ exists c, name = [c] /\ ~ In c (T "{\").
  Inductive Kind (m : mode) : list N -> (N -> Prop) -> Prop :=
  | K_digit : Kind m (T "d") (fun c => unicode_digit c = true)
  | K_no_digit : Kind m (T "D") (fun c => unicode_digit c = false)
  | K_space : Kind m (T "s") (fun c => In c spaces)
  | K_no_space : Kind m (T "S") (fun c => ~ In c spaces)
  | K_word : Kind m (T "w") (fun c => unicode_word c = true)
  | K_no_word : Kind m (T "W") (fun c => unicode_word c = false)
  | K_class name t p : unicode_class name = Some p -> Named name t -> Kind m (T "p" ++ t) (Folded m (fun c => p c = true))
  | K_no_class name t p : unicode_class name = Some p -> Named name t -> Kind m (T "P" ++ t) (fun c => ~ Folded m (fun c => p c = true) c).

  (** After a backslash: what stands for a place. *)
  Let word (c : N) : Prop := unicode_word c = true.
  Inductive Place : list N -> (list N -> nat -> Prop) -> Prop :=
  | L_start : Place (T "A") (fun w i => i = 0)
  | L_end : Place (T "z") (fun w i => i = List.length w)
  | L_boundary : Place (T "b") (fun w i => Before word w i /\ ~ After word w i \/ ~ Before word w i /\ After word w i)
  | L_inside : Place (T "B") (fun w i => Before word w i /\ After word w i \/ ~ Before word w i /\ ~ After word w i)
  | L_word_start t : In t [T "<"; T "b{start}"] -> Place t (fun w i => ~ Before word w i /\ After word w i)
  | L_word_end t : In t [T ">"; T "b{end}"] -> Place t (fun w i => Before word w i /\ ~ After word w i)
  | L_start_half : Place (T "b{start-half}") (fun w i => ~ Before word w i)
  | L_end_half : Place (T "b{end-half}") (fun w i => ~ After word w i).

  (** ** Classes *)
  Inductive Class_char : list N -> N -> Prop :=
  | H_itself c : ~ In c (T "[]\-&~^") -> Class_char [c] c
  | H_escaped t c : Escaped t c -> Class_char (T "\" ++ t) c.
  Definition Or (P Q : N -> Prop) (c : N) : Prop := P c \/ Q c.
  Inductive Operator : list N -> ((N -> Prop) -> (N -> Prop) -> N -> Prop) -> Prop :=
  | O_both : Operator (T "&&") (fun P Q c => P c /\ Q c)
  | O_minus : Operator (T "--") (fun P Q c => P c /\ ~ Q c)
  | O_either : Operator (T "~~") (fun P Q c => P c /\ ~ Q c \/ ~ P c /\ Q c).
  Inductive Item (m : mode) : list N -> (N -> Prop) -> Prop :=
  | I_char t c : Class_char t c -> Item m t (eq c)
  | I_range t1 lo t2 hi : Class_char t1 lo -> Class_char t2 hi -> (lo <= hi)%N -> Item m (t1 ++ T "-" ++ t2) (fun c => lo <= c <= hi)%N
  | I_kind t P : Kind m t P -> Item m (T "\" ++ t) P
  | I_posix name P : Posix name P -> Item m (T "[:" ++ name ++ T ":]") (Folded m P)
  | I_no_posix name P : Posix name P -> Item m (T "[:^" ++ name ++ T ":]") (fun c => ~ Folded m P c)
  | I_class t P : Class m t P -> nth_error t 1 <> Some (C ":") -> Item m t P
  (** One or more items. *)
  with Items (m : mode) : list N -> (N -> Prop) -> Prop :=
  | I_one t P : Item m t P -> Items m t P
  | I_more t1 P t2 Q : Item m t1 P -> Items m t2 Q -> Items m (t1 ++ t2) (Or P Q)
  (** What stands between the brackets; [closed]: nothing can come after it.  A bracket or dashes at the beginning, or a dash at the
      end, stand for themselves.  The operators group to the left. *)
  with Body (m : mode) : bool -> list N -> (N -> Prop) -> Prop :=
  | B_items t P : Items m t P -> Body m false t P
  | B_bracket : Body m false (T "]") (eq (C "]"))
  | B_bracket_items t P : Items m t P -> Body m false (T "]" ++ t) (Or (eq (C "]")) P)
  | B_dashes k : Body m true (repeat (C "-") (S k)) (eq (C "-"))
  | B_dashes_items k t P : Items m t P -> Body m false (repeat (C "-") (S k) ++ t) (Or (eq (C "-")) P)
  | B_operator t1 P o op t2 Q : Body m false t1 P -> Operator o op -> Items m t2 Q -> Body m false (t1 ++ o ++ t2) (op (Folded m P) (Folded m Q))
  | B_dash t P : Items m t P -> Body m true (t ++ T "-") (Or P (eq (C "-")))
  | B_operator_dash t1 P o op t2 Q : Body m false t1 P -> Operator o op -> Items m t2 Q ->
      Body m true (t1 ++ o ++ t2 ++ T "-") (op (Folded m P) (Folded m (Or Q (eq (C "-")))))
  with Class (m : mode) : list N -> (N -> Prop) -> Prop :=
  | C_any closed t P : Body m closed t P -> Class m (T "[" ++ t ++ T "]") (Folded m P)
  | C_no closed t P : Body m closed t P -> Class m (T "[^" ++ t ++ T "]") (fun c => ~ Folded m P c).

  (** ** Expressions *)
  (** A repetition; [open]: a question mark after it would be part of it. *)
  Inductive Quantifier (m : mode) : list N -> nat -> option nat -> bool -> bool -> Prop :=
  | Q_greedy t min max : Count t min max -> Quantifier m t min max (negb (swap_greed m)) true
  | Q_lazy t min max : Count t min max -> Quantifier m (t ++ T "?") min max (swap_greed m) false.
  Definition Group_name (name : list N) : Prop :=
    match name with
    | [] => False
    | c :: cs => (c = C "_" \/ alphabetic c = true) /\ Forall (fun c => In c (T "_.[]") \/ alphanumeric c = true) cs
    end /\ Forall (fun c => ~ In c (T ">=!")) name.

  (** The last argument: the names of the groups. *)
  Inductive Atom (m : mode) : list N -> re -> list (list N) -> Prop :=
  | A_itself c p : ~ In c (T "\.+*?()|[{^$") -> Is p (Folded m (eq c)) -> Atom m [c] (One p) []
  | A_escaped t c p : Escaped t c -> Is p (Folded m (eq c)) -> Atom m (T "\" ++ t) (One p) []
  | A_kind t P p : Kind m t P -> Is p P -> Atom m (T "\" ++ t) (One p) []
  | A_place t P f : Place t P -> At f P -> Atom m (T "\" ++ t) (Look f) []
  | A_any p : Is p (Any m) -> Atom m (T ".") (One p) []
  | A_start f : At f (Starts m) -> Atom m (T "^") (Look f) []
  | A_end f : At f (Ends m) -> Atom m (T "$") (Look f) []
  | A_class t P p : Class m t P -> Is p P -> Atom m t (One p) []
  | A_group t r m' ns : Alts m t r m' ns -> Atom m (T "(" ++ t ++ T ")") r ns
  | A_flags fl m1 t r m' ns : Switch fl m m1 -> Alts m1 t r m' ns -> Atom m (T "(?" ++ fl ++ T ":" ++ t ++ T ")") r ns
  | A_named o name t r m' ns : In o [T "(?P<"; T "(?<"] -> Group_name name -> Alts m t r m' ns ->
      Atom m (o ++ name ++ T ">" ++ t ++ T ")") r (name :: ns)
  with Piece (m : mode) : bool -> list N -> re -> list (list N) -> Prop :=
  | P_atom t r ns : Atom m t r ns -> Piece m false t r ns
  | P_repeat open t r ns q min max greedy open' : Piece m open t r ns -> Quantifier m q min max greedy open' ->
      (open = true -> hd_error q <> Some (C "?")) -> Piece m open' (t ++ q) (Rep min max greedy r) ns
  (** [m']: the flags in force at the end. *)
  with Branch (m : mode) : list N -> re -> mode -> list (list N) -> Prop :=
  | R_empty : Branch m [] Empty m []
  | R_flags fl m1 t r m' ns : Switch fl m m1 -> fl <> [] -> Branch m1 t r m' ns -> Branch m (T "(?" ++ fl ++ T ")" ++ t) r m' ns
  | R_piece open t1 r1 ns1 t2 r2 m' ns2 : Piece m open t1 r1 ns1 -> Branch m t2 r2 m' ns2 -> Branch m (t1 ++ t2) (Cat r1 r2) m' (ns1 ++ ns2)
  with Alts (m : mode) : list N -> re -> mode -> list (list N) -> Prop :=
  | Z_one t r m' ns : Branch m t r m' ns -> Alts m t r m' ns
  | Z_more t1 r1 m1 ns1 t2 r2 m2 ns2 : Branch m t1 r1 m1 ns1 -> Alts m1 t2 r2 m2 ns2 -> Alts m (t1 ++ T "|" ++ t2) (Alt r1 r2) m2 (ns1 ++ ns2).
End Syntax.
