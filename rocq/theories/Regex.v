(** The part of the regex crate (1.10, not in /repo) that /repo needs: the syntax, and whether an expression matches.

    Modelled after the documentation of the crate and the parser of regex-syntax 0.8, with its default settings.  Left out: the
    flag u (the parser of the model answers [None] to a pattern with it, as to an error of syntax); the limits of the crate on
    the depth of nesting and on the size of the compiled program.  Simplified: a comment of the flag x right after the dash of
    a range.  Captures are not used by /repo, and not modelled; the names of groups are, since one can not be used twice. *)
From Coq.Strings Require Import String.
From Verif Require Import Base Utf8 SpecUtf8 SpecJson Json SpecRegex.
Set Implicit Arguments.
Local Open Scope list_scope.

(** ** The characters of a text *)
Definition char_value (s : bytes) : N :=
  match s with
  | [a] => bN a
  | [a; b] => (bN a - 0xC0) * 64 + (bN b - 0x80)
  | [a; b; c] => (bN a - 0xE0) * 4096 + (bN b - 0x80) * 64 + (bN c - 0x80)
  | [a; b; c; d] => (bN a - 0xF0) * 262144 + (bN b - 0x80) * 4096 + (bN c - 0x80) * 64 + (bN d - 0x80)
  | _ => 0
  end%N.
(** [s.chars()].  (A [&str] has no ill-formed parts.) *)
Fixpoint chars_fuel (fuel : nat) (s : bytes) : list N :=
  match fuel, s with
  | S fuel', _ :: _ =>
      match utf8_step s with
      | GoodChar n => char_value (firstn n s) :: chars_fuel fuel' (skipn n s)
      | BadPart _ => []
      end
  | _, _ => []
  end.
Definition chars (s : bytes) : list N := chars_fuel (List.length s) s.

Definition between (lo hi c : N) : bool := (lo <=? c)%N && (c <=? hi)%N.
Definition in_ranges (rs : list (N * N)) (c : N) : bool := existsb (fun r => between (fst r) (snd r) c) rs.
Definition is (b : byte) (c : N) : bool := N.eqb c (bN b).
Definition is_some_of (s : string) (c : N) : bool := existsb (fun b => is b c) (B s).

(** [White_Space] of Unicode: [char::is_whitespace], \s. *)
Definition white_space (c : N) : bool := in_ranges
  [(0x09, 0x0D); (0x20, 0x20); (0x85, 0x85); (0xA0, 0xA0); (0x1680, 0x1680); (0x2000, 0x200A); (0x2028, 0x2029);
   (0x202F, 0x202F); (0x205F, 0x205F); (0x3000, 0x3000)]%N c.

(** The classes [:name:]. *)
Definition posix_classes : list (bytes * list (N * N)) := map (fun p => (B (fst p), snd p))
  [("alnum", [(0x30, 0x39); (0x41, 0x5A); (0x61, 0x7A)]);
   ("alpha", [(0x41, 0x5A); (0x61, 0x7A)]);
   ("ascii", [(0x00, 0x7F)]);
   ("blank", [(0x09, 0x09); (0x20, 0x20)]);
   ("cntrl", [(0x00, 0x1F); (0x7F, 0x7F)]);
   ("digit", [(0x30, 0x39)]);
   ("graph", [(0x21, 0x7E)]);
   ("lower", [(0x61, 0x7A)]);
   ("print", [(0x20, 0x7E)]);
   ("punct", [(0x21, 0x2F); (0x3A, 0x40); (0x5B, 0x60); (0x7B, 0x7E)]);
   ("space", [(0x09, 0x0D); (0x20, 0x20)]);
   ("upper", [(0x41, 0x5A)]);
   ("word", [(0x30, 0x39); (0x41, 0x5A); (0x5F, 0x5F); (0x61, 0x7A)]);
   ("xdigit", [(0x30, 0x39); (0x41, 0x46); (0x61, 0x66)])]%string%N.

Fixpoint chars_eqb (a b : list N) : bool :=
  match a, b with
  | [], [] => true
  | x :: a', y :: b' => N.eqb x y && chars_eqb a' b'
  | _, _ => false
  end.
Definition posix_named (name : list N) : option (list (N * N)) :=
  option_map snd (find (fun p => chars_eqb (map bN (fst p)) name) posix_classes).

(** The flags in force: i (ignore case), m (^ and $ match at lines), s (the dot matches line feeds), U (repetitions are lazy),
    R (lines may end in CR LF), x (blanks and comments are ignored). *)
Record flags := Flags { f_i : bool; f_m : bool; f_s : bool; f_U : bool; f_R : bool; f_x : bool }.
Definition no_flags : flags := Flags false false false false false false.

(** What a backslash begins: a character, a class, an assertion. *)
Inductive prim := PChar (c : N) | PClass (p : N -> bool) | PLook (f : list N -> nat -> bool).

(** ** Assertions *)
Definition before (p : N -> bool) (w : list N) (i : nat) : bool :=
  match i with 0 => false | S i' => match nth_error w i' with Some c => p c | None => false end end.
Definition after (p : N -> bool) (w : list N) (i : nat) : bool := match nth_error w i with Some c => p c | None => false end.
Definition text_start (w : list N) (i : nat) : bool := i =? 0.
Definition text_end (w : list N) (i : nat) : bool := i =? List.length w.
Definition LF : byte := x0a.
Definition CR : byte := x0d.
Definition line_start (crlf : bool) (w : list N) (i : nat) : bool :=
  text_start w i || before (is LF) w i || (crlf && before (is CR) w i && negb (after (is LF) w i)).
Definition line_end (crlf : bool) (w : list N) (i : nat) : bool :=
  if crlf then text_end w i || after (is CR) w i || (after (is LF) w i && negb (before (is CR) w i))
  else text_end w i || after (is LF) w i.

(** ** Lexical elements *)
(** Blanks and comments; [comment]: is the text in a comment? *)
Fixpoint skip_blank (comment : bool) (s : list N) : list N :=
  match s with
  | [] => []
  | c :: s' =>
      if comment then skip_blank (negb (is LF c)) s'
      else if white_space c then skip_blank false s'
      else if is "#" c then skip_blank true s'
      else s
  end.
Definition bump_space (x : bool) (s : list N) : list N := if x then skip_blank false s else s.

Definition hex_digit (c : N) : option N :=
  if between 0x30 0x39 c then Some (c - 0x30)%N
  else if between 0x61 0x66 c then Some (c - 0x61 + 10)%N
  else if between 0x41 0x46 c then Some (c - 0x41 + 10)%N
  else None.
(** [n] hexadecimal digits; hexadecimal digits up to a closing brace. *)
Fixpoint hex_digits (x : bool) (n : nat) (s : list N) (acc : N) : option (N * list N) :=
  match n with
  | 0 => Some (acc, s)
  | S n' =>
      match s with
      | c :: s' => match hex_digit c with Some d => hex_digits x n' (bump_space x s') (acc * 16 + d)%N | None => None end
      | [] => None
      end
  end.
Fixpoint hex_brace (x : bool) (fuel : nat) (s : list N) (digits : nat) (acc : N) : option (N * list N) :=
  match fuel, s with
  | S fuel', c :: s' =>
      if is "}" c then (if digits =? 0 then None else Some (acc, bump_space x s'))
      else match hex_digit c with
           | Some d => hex_brace x fuel' (bump_space x s') (S digits) (acc * 16 + d)%N
           | None => None
           end
  | _, _ => None
  end.
Definition is_scalar (c : N) : bool := (c <? 0xD800)%N || between 0xE000 0x10FFFF c.
(** After \x, \u, \U. *)
Definition parse_hex (x : bool) (n : nat) (s : list N) : option (prim * list N) :=
  match (match bump_space x s with
         | c :: s1 => if is "{" c then hex_brace x (List.length s) (bump_space x s1) 0 0 else hex_digits x n (c :: s1) 0
         | [] => None
         end) with
  | Some (c, s') => if is_scalar c then Some (PChar c, s') else None
  | None => None
  end.

(** The text before the first [stop], without blanks. *)
Fixpoint text_until (x : bool) (stop : byte) (fuel : nat) (s : list N) : option (list N * list N) :=
  match fuel, s with
  | S fuel', c :: s' =>
      if is stop c then Some ([], s')
      else match text_until x stop fuel' (bump_space x s') with Some (t, rest) => Some (c :: t, rest) | None => None end
  | _, _ => None
  end.

(** White space is allowed around numbers. *)
Fixpoint skip_white (s : list N) : list N := match s with c :: s' => if white_space c then skip_white s' else s | [] => [] end.
Fixpoint digits_loop (x : bool) (fuel : nat) (s : list N) (digits : nat) (acc : N) : nat * N * list N :=
  match fuel, s with
  | S fuel', c :: s' => if between 0x30 0x39 c then digits_loop x fuel' (bump_space x s') (S digits) (acc * 10 + (c - 0x30))%N else (digits, acc, s)
  | _, _ => (digits, acc, s)
  end.
Fixpoint skip_white_x (x : bool) (fuel : nat) (s : list N) : list N :=
  match fuel, s with
  | S fuel', c :: s' => if white_space c then skip_white_x x fuel' (bump_space x s') else s
  | _, _ => s
  end.
(** A number below 2^32. *)
Definition parse_decimal (x : bool) (s : list N) : option (nat * list N) :=
  let s1 := skip_white s in
  let '(digits, n, s2) := digits_loop x (List.length s1) s1 0 0 in
  if (digits =? 0) || (2 ^ 32 <=? n)%N then None else Some (N.to_nat n, skip_white_x x (List.length s2) s2).
(** After an opening brace, up to the closing one: the least and the greatest number of repetitions. *)
Definition parse_counts (x : bool) (s : list N) : option (nat * option nat * list N) :=
  match parse_decimal x (bump_space x s) with
  | Some (m, c :: s1) =>
      if is "}" c then Some (m, Some m, bump_space x s1)
      else if is "," c then
        match bump_space x s1 with
        | d :: s2 =>
            if is "}" d then Some (m, None, bump_space x s2)
            else
              match parse_decimal x (d :: s2) with
              | Some (n, e :: s3) => if is "}" e && (m <=? n) then Some (m, Some n, bump_space x s3) else None
              | _ => None
              end
        | [] => None
        end
      else None
  | _ => None
  end.
(** The question mark that makes a repetition lazy. *)
Definition parse_greedy (s : list N) : bool * list N :=
  match s with
  | c :: s' => if is "?" c then (false, s') else (true, s)
  | [] => (true, [])
  end.

(** A flag switched on or off. *)
Definition set_flag (c : N) (on : bool) (f : flags) : option flags :=
  if is "i" c then Some (Flags on (f_m f) (f_s f) (f_U f) (f_R f) (f_x f))
  else if is "m" c then Some (Flags (f_i f) on (f_s f) (f_U f) (f_R f) (f_x f))
  else if is "s" c then Some (Flags (f_i f) (f_m f) on (f_U f) (f_R f) (f_x f))
  else if is "U" c then Some (Flags (f_i f) (f_m f) (f_s f) on (f_R f) (f_x f))
  else if is "R" c then Some (Flags (f_i f) (f_m f) (f_s f) (f_U f) on (f_x f))
  else if is "x" c then Some (Flags (f_i f) (f_m f) (f_s f) (f_U f) (f_R f) on)
  else None.
(** The flags up to a colon ([true]) or a closing parenthesis ([false]).  [seen]: what came before. *)
Fixpoint parse_flags (s : list N) (f : flags) (on : bool) (seen : list N) : option (bool * flags * list N) :=
  match s with
  | [] => None
  | c :: s' =>
      if is ":" c || is ")" c then
        match seen with
        | d :: _ => if is "-" d then None else Some (is ":" c, f, s')
        | [] => if is ":" c then Some (true, f, s') else None
        end
      else if existsb (N.eqb c) seen then None
      else if is "-" c then parse_flags s' f false (c :: seen)
      else match set_flag c on f with Some f' => parse_flags s' f' on (c :: seen) | None => None end
  end.

Section Regex.
  (** The tables of Unicode: the characters that differ from one only in case (simple case folding); the classes \d, \w,
      \p{..} by name; letters, letters and numbers. *)
  Variable same_letter : N -> list N.
  Variables (unicode_digit unicode_word : N -> bool).
  Variable unicode_class : list N -> option (N -> bool).
  Variables (alphabetic alphanumeric : N -> bool).

  (** The classes with the flag i. *)
  Definition fold_class (i : bool) (p : N -> bool) (c : N) : bool := p c || (i && existsb p (same_letter c)).
  Definition negate (neg : bool) (p : N -> bool) (c : N) : bool := xorb neg (p c).

  Definition word_boundary (w : list N) (i : nat) : bool := xorb (before unicode_word w i) (after unicode_word w i).
  Definition word_start (w : list N) (i : nat) : bool := negb (before unicode_word w i) && after unicode_word w i.
  Definition word_end (w : list N) (i : nat) : bool := before unicode_word w i && negb (after unicode_word w i).
  Definition word_start_half (w : list N) (i : nat) : bool := negb (before unicode_word w i).
  Definition word_end_half (w : list N) (i : nat) : bool := negb (after unicode_word w i).

  (** After \b: one of the special forms in braces, unless the brace begins a repetition. *)
  Definition in_word_kind (c : N) : bool := between 0x41 0x5A c || between 0x61 0x7A c || is "-" c.
  Definition parse_boundary (x : bool) (s : list N) : option (prim * list N) :=
    match s with
    | c :: s1 =>
        if is "{" c then
          match bump_space x s1 with
          | [] => None
          | d :: s2 =>
              if in_word_kind d then
                match text_until x "}" (S (List.length s2)) (d :: s2) with
                | Some (name, rest) =>
                    if chars_eqb name (map bN (B "start")) then Some (PLook word_start, rest)
                    else if chars_eqb name (map bN (B "end")) then Some (PLook word_end, rest)
                    else if chars_eqb name (map bN (B "start-half")) then Some (PLook word_start_half, rest)
                    else if chars_eqb name (map bN (B "end-half")) then Some (PLook word_end_half, rest)
                    else None
                | None => None
                end
              else Some (PLook word_boundary, s)
          end
        else Some (PLook word_boundary, s)
    | [] => Some (PLook word_boundary, s)
    end.

  (** After \p, \P. *)
  Definition parse_unicode_class (f : flags) (neg : bool) (s : list N) : option (prim * list N) :=
    match (match bump_space (f_x f) s with
           | [] => None
           | c :: s1 =>
               if is "{" c then text_until (f_x f) "}" (List.length s1) (bump_space (f_x f) s1)
               else if is "\" c then None
               else Some ([c], bump_space (f_x f) s1)
           end) with
    | Some (name, rest) => option_map (fun p => (PClass (negate neg (fold_class (f_i f) p)), rest)) (unicode_class name)
    | None => None
    end.

  (** After a backslash. *)
  Definition parse_escape (f : flags) (s : list N) : option (prim * list N) :=
    match s with
    | [] => None
    | c :: s' =>
        if is "x" c then parse_hex (f_x f) 2 s'
        else if is "u" c then parse_hex (f_x f) 4 s'
        else if is "U" c then parse_hex (f_x f) 8 s'
        else if is "p" c then parse_unicode_class f false s'
        else if is "P" c then parse_unicode_class f true s'
        else if is "d" c then Some (PClass unicode_digit, s')
        else if is "D" c then Some (PClass (negate true unicode_digit), s')
        else if is "s" c then Some (PClass white_space, s')
        else if is "S" c then Some (PClass (negate true white_space), s')
        else if is "w" c then Some (PClass unicode_word, s')
        else if is "W" c then Some (PClass (negate true unicode_word), s')
        else if is "a" c then Some (PChar 0x07, s')
        else if is "t" c then Some (PChar 0x09, s')
        else if is "n" c then Some (PChar 0x0A, s')
        else if is "v" c then Some (PChar 0x0B, s')
        else if is "f" c then Some (PChar 0x0C, s')
        else if is "r" c then Some (PChar 0x0D, s')
        else if is "A" c then Some (PLook text_start, s')
        else if is "z" c then Some (PLook text_end, s')
        else if is "b" c then parse_boundary (f_x f) s'
        else if is "B" c then Some (PLook (fun w i => negb (word_boundary w i)), s')
        else if is "<" c then Some (PLook word_start, s')
        else if is ">" c then Some (PLook word_end, s')
        else if between 0x30 0x39 c || between 0x41 0x5A c || between 0x61 0x7A c || (0x7F <? c)%N then None
        else Some (PChar c, s')
    end.

  (** ** Classes in brackets *)
  (** After a bracket inside of a class: :name:] or :^name:]. *)
  Definition parse_posix (f : flags) (s : list N) : option ((N -> bool) * list N) :=
    match s with
    | [] => None
    | c :: s1 =>
        if is ":" c then
          let '(neg, s2) := match s1 with d :: s2 => if is "^" d then (true, s2) else (false, s1) | [] => (false, s1) end in
          match text_until false ":" (List.length s2) s2 with
          | Some (name, d :: s3) =>
              if is "]" d then option_map (fun rs => (negate neg (fold_class (f_i f) (in_ranges rs)), s3)) (posix_named name) else None
          | _ => None
          end
        else None
    end.

  Definition class_prim (f : flags) (s : list N) : option (prim * list N) :=
    match s with
    | [] => None
    | c :: s' => if is "\" c then parse_escape f s' else Some (PChar c, s')
    end.
  (** A character, a class or a range. *)
  Definition class_range (f : flags) (s : list N) : option ((N -> bool) * list N) :=
    match class_prim f s with
    | None => None
    | Some (p, s1) =>
        let single := match p with
                      | PChar c => Some (N.eqb c, s1)
                      | PClass p => Some (p, s1)
                      | PLook _ => None
                      end in
        match bump_space (f_x f) s1 with
        | d :: s2 =>
            match bump_space (f_x f) s2 with
            | c :: s3 =>
                if is "-" d && negb (is "]" c || is "-" c) then
                  match p, class_prim f (c :: s3) with
                  | PChar lo, Some (PChar hi, s4) => if (lo <=? hi)%N then Some (between lo hi, s4) else None
                  | _, _ => None
                  end
                else single
            | [] => single
            end
        | [] => None
        end
    end.
  (** Dashes at the beginning stand for themselves. *)
  Fixpoint class_dashes (x : bool) (fuel : nat) (s : list N) : bool * list N :=
    match fuel, s with
    | S fuel', c :: s' => if is "-" c then (true, snd (class_dashes x fuel' (bump_space x s'))) else (false, s)
    | _, _ => (false, s)
    end.
  (** After an opening bracket: is the class negated, and what stands first in it? *)
  Definition class_open (f : flags) (s : list N) : bool * (N -> bool) * list N :=
    let s0 := bump_space (f_x f) s in
    let '(neg, s1) := match s0 with c :: s1 => if is "^" c then (true, bump_space (f_x f) s1) else (false, s0) | [] => (false, s0) end in
    let '(dash, s2) := class_dashes (f_x f) (List.length s1) s1 in
    match s2 with
    | c :: s3 => if negb dash && is "]" c then (neg, N.eqb c, bump_space (f_x f) s3) else (neg, fun c => dash && is "-" c, s2)
    | [] => (neg, fun c => dash && is "-" c, s2)
    end.

  Inductive set_op := Both | Minus | Xor.
  Definition op_class (op : set_op) (a b : bool) : bool := match op with Both => a && b | Minus => a && negb b | Xor => xorb a b end.
  Definition parse_op (s : list N) : option (set_op * list N) :=
    match s with
    | c :: d :: s' =>
        if is "&" c && is "&" d then Some (Both, s')
        else if is "-" c && is "-" d then Some (Minus, s')
        else if is "~" c && is "~" d then Some (Xor, s')
        else None
    | _ => None
    end.
  (** The left side of an operator waits for the right one. *)
  Definition close_op (f : flags) (pending : option ((N -> bool) * set_op)) (p : N -> bool) : N -> bool :=
    match pending with
    | None => p
    | Some (l, op) => fun c => op_class op (fold_class (f_i f) l c) (fold_class (f_i f) p c)
    end.
  Definition union (p q : N -> bool) (c : N) : bool := p c || q c.
  (** Up to the closing bracket. *)
  Fixpoint class_items (f : flags) (fuel : nat) (s : list N) (pending : option ((N -> bool) * set_op)) (p : N -> bool)
      : option ((N -> bool) * list N) :=
    match fuel with
    | 0 => None
    | S fuel' =>
        match bump_space (f_x f) s with
        | [] => None
        | c :: s' =>
            if is "]" c then Some (close_op f pending p, s')
            else if is "[" c then
              match parse_posix f s' with
              | Some (q, s1) => class_items f fuel' s1 pending (union p q)
              | None =>
                  let '(neg, first, s1) := class_open f s' in
                  match class_items f fuel' s1 None first with
                  | Some (q, s2) => class_items f fuel' s2 pending (union p (negate neg (fold_class (f_i f) q)))
                  | None => None
                  end
              end
            else
              match parse_op (c :: s') with
              | Some (op, s1) => class_items f fuel' s1 (Some (close_op f pending p, op)) (fun _ => false)
              | None =>
                  match class_range f (c :: s') with
                  | Some (q, s1) => class_items f fuel' s1 pending (union p q)
                  | None => None
                  end
              end
        end
    end.
  (** After an opening bracket. *)
  Definition parse_class (f : flags) (s : list N) : option (re * list N) :=
    let '(neg, first, s1) := class_open f s in
    match class_items f (S (List.length s)) s1 None first with
    | Some (q, s2) => Some (One (negate neg (fold_class (f_i f) q)), s2)
    | None => None
    end.

  (** ** Groups *)
  Definition name_char (first : bool) (c : N) : bool :=
    is "_" c || (if first then alphabetic c else is "." c || is "[" c || is "]" c || alphanumeric c).
  Fixpoint parse_name (first : bool) (s : list N) : option (list N * list N) :=
    match s with
    | [] => None
    | c :: s' =>
        if is ">" c then (if first then None else Some ([], s'))
        else if name_char first c then match parse_name false s' with Some (n, rest) => Some (c :: n, rest) | None => None end
        else None
    end.
  (** What an opening parenthesis begins: a group, or a change of the flags.  [names]: of the groups so far. *)
  Inductive opening := Group (f : flags) (names : list (list N)) | Change (f : flags).
  Definition parse_named (f : flags) (names : list (list N)) (s : list N) : option (opening * list N) :=
    match parse_name true s with
    | Some (n, s1) => if existsb (chars_eqb n) names then None else Some (Group f (n :: names), s1)
    | None => None
    end.
  Definition open_group (f : flags) (names : list (list N)) (s : list N) : option (opening * list N) :=
    let s0 := bump_space (f_x f) s in
    match s0 with
    | c :: s1 =>
        if is "?" c then
          match s1 with
          | a :: b :: s2 =>
              if is "P" a && is "<" b then parse_named f names s2
              else if is "<" a then (if is "=" b || is "!" b then None else parse_named f names (b :: s2))
              else match parse_flags s1 f true [] with
                   | Some (true, f', s3) => Some (Group f' names, s3)
                   | Some (false, f', s3) => Some (Change f', s3)
                   | None => None
                   end
          | _ => match parse_flags s1 f true [] with
                 | Some (true, f', s3) => Some (Group f' names, s3)
                 | Some (false, f', s3) => Some (Change f', s3)
                 | None => None
                 end
          end
        else Some (Group f names, s0)
    | [] => Some (Group f names, s0)
    end.

  (** ** Expressions *)
  Definition char_re (f : flags) (c : N) : re := One (fold_class (f_i f) (N.eqb c)).
  Definition dot_re (f : flags) : re :=
    One (fun c => if f_s f then true else if f_R f then negb (is LF c || is CR c) else negb (is LF c)).
  Definition start_re (f : flags) : re := Look (if f_m f then line_start (f_R f) else text_start).
  Definition end_re (f : flags) : re := Look (if f_m f then line_end (f_R f) else text_end).
  Definition re_of (f : flags) (p : prim) : re :=
    match p with
    | PChar c => char_re f c
    | PClass p => One p
    | PLook l => Look l
    end.
  (** [cat]: the parts of the current concatenation ([None]: a change of the flags); [alts]: the alternatives before it; the
      last ones first. *)
  Definition cat_of (cat : list (option re)) : re :=
    fold_left (fun r a => match a, r with None, _ => r | Some a, Empty => a | Some a, _ => Cat a r end) cat Empty.
  Definition alt_of (alts : list re) (last : re) : re := fold_left (fun r a => Alt a r) alts last.

  (** Up to the end, or to a closing parenthesis, which stays. *)
  Fixpoint parse_loop (fuel : nat) (f : flags) (names : list (list N)) (s : list N) (alts : list re) (cat : list (option re))
      : option (re * list N * list (list N)) :=
    match fuel with
    | 0 => None
    | S fuel' =>
        let repeat_last min max s' :=
          match cat with
          | Some r :: cat' =>
              let '(greedy, s'') := parse_greedy s' in
              parse_loop fuel' f names s'' alts (Some (Rep min max (xorb (f_U f) greedy) r) :: cat')
          | _ => None
          end in
        match bump_space (f_x f) s with
        | [] => Some (alt_of alts (cat_of cat), [], names)
        | c :: s' =>
            if is ")" c then Some (alt_of alts (cat_of cat), c :: s', names)
            else if is "|" c then parse_loop fuel' f names s' (cat_of cat :: alts) []
            else if is "(" c then
              match open_group f names s' with
              | None => None
              | Some (Change f', s1) => parse_loop fuel' f' names s1 alts (None :: cat)
              | Some (Group f' names', s1) =>
                  match parse_loop fuel' f' names' s1 [] [] with
                  | Some (r, _ :: s2, names2) => parse_loop fuel' f names2 s2 alts (Some r :: cat)
                  | _ => None
                  end
              end
            else if is "[" c then
              match parse_class f s' with
              | Some (r, s1) => parse_loop fuel' f names s1 alts (Some r :: cat)
              | None => None
              end
            else if is "?" c then repeat_last 0 (Some 1) s'
            else if is "*" c then repeat_last 0 None s'
            else if is "+" c then repeat_last 1 None s'
            else if is "{" c then
              match parse_counts (f_x f) s' with
              | Some (min, max, s1) => repeat_last min max s1
              | None => None
              end
            else if is "\" c then
              match parse_escape f s' with
              | Some (p, s1) => parse_loop fuel' f names s1 alts (Some (re_of f p) :: cat)
              | None => None
              end
            else if is "." c then parse_loop fuel' f names s' alts (Some (dot_re f) :: cat)
            else if is "^" c then parse_loop fuel' f names s' alts (Some (start_re f) :: cat)
            else if is "$" c then parse_loop fuel' f names s' alts (Some (end_re f) :: cat)
            else parse_loop fuel' f names s' alts (Some (char_re f c) :: cat)
        end
    end.
  (** [Regex::new]: the expression and the names of its groups. *)
  Definition parse_regex (s : list N) : option (re * list (list N)) :=
    match parse_loop (S (List.length s)) no_flags [] s [] [] with
    | Some (r, [], names) => Some (r, names)
    | _ => None
    end.
End Regex.

(** ** Matching *)
Section Ends.
  Variable step : nat -> list nat.
  (** What [k] steps lead to; what at most [k] steps lead to. *)
  Fixpoint exactly (k : nat) (from : list nat) : list nat :=
    match k with
    | 0 => from
    | S k' => exactly k' (nodup Nat.eq_dec (flat_map step from))
    end.
  Fixpoint up_to (k : nat) (from : list nat) : list nat :=
    match k with
    | 0 => from
    | S k' => nodup Nat.eq_dec (from ++ up_to k' (nodup Nat.eq_dec (flat_map step from)))
    end.
End Ends.
(** Where the matches from [i] on end. *)
Fixpoint ends (w : list N) (r : re) (i : nat) : list nat :=
  match r with
  | Empty => [i]
  | One p => match nth_error w i with Some c => if p c then [S i] else [] | None => [] end
  | Look f => if f w i then [i] else []
  | Cat a b => flat_map (ends w b) (ends w a i)
  | Alt a b => ends w a i ++ ends w b i
  | Rep min max _ a =>
      up_to (ends w a) (match max with None => List.length w | Some m => Nat.min (m - min) (List.length w) end)
        (match max with
         | Some m => if min <=? m then exactly (ends w a) min [i] else []
         | None => exactly (ends w a) min [i]
         end)
  end.
(** [Regex::is_match]. *)
Definition matches_somewhere (r : re) (w : list N) : bool :=
  existsb (fun i => match ends w r i with [] => false | _ => true end) (seq 0 (S (List.length w))).
Definition regex_is_match (r : re) (s : bytes) : bool := matches_somewhere r (chars s).

(** [Regex::new]: what [is_match] and [find_iter] do ([find]: in Find.v). *)
Definition regex_new same_letter unicode_digit unicode_word unicode_class alphabetic alphanumeric (find : re -> bytes -> list bytes) (text : bytes)
    : option ((bytes -> bool) * (bytes -> list bytes)) :=
  match parse_regex same_letter unicode_digit unicode_word unicode_class alphabetic alphanumeric (chars text) with
  | Some (r, _) => Some (regex_is_match r, find r)
  | None => None
  end.
