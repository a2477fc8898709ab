(** The part of the regex crate (1.10, not in /repo) that finds matches: [Regex::find_iter].

    Modelled after the documentation ("leftmost-first", as in Perl) and regex-automata 0.4: [thompson::Compiler] for the order of
    the alternatives (x* with an x that can match nothing is (x+)?; x{n,} is x{n-1}x+; x{n,m} is x{n} and then optional ones, nested),
    [util::iter::Searcher] for the next search.  A thread that comes back to a state at the same position dies: a loop is left after
    a turn that matched nothing. *)
From Verif Require Import Base Utf8 SpecUtf8 SpecRegex Regex.
Set Implicit Arguments.

Section Order.
  (** Where the body ends when it begins at a position, the preferred ends first. *)
  Variable step : nat -> list nat.
  (** x{k} *)
  Fixpoint times (k : nat) (i : nat) : list nat :=
    match k with
    | 0 => [i]
    | S k' => flat_map (times k') (step i)
    end.
  (** First [more], then [i]; the other way round if lazy. *)
  Definition more_or (greedy : bool) (more : list nat) (i : nat) : list nat := if greedy then more ++ [i] else i :: more.
  (** x+ *)
  Fixpoint plus (greedy : bool) (fuel : nat) (i : nat) : list nat :=
    match fuel with
    | 0 => []
    | S fuel' => flat_map (fun j => more_or greedy (if j =? i then [] else plus greedy fuel' j) j) (step i)
    end.
  (** x{0,k} *)
  Fixpoint optional (greedy : bool) (k : nat) (i : nat) : list nat :=
    match k with
    | 0 => [i]
    | S k' => more_or greedy (flat_map (optional greedy k') (step i)) i
    end.
End Order.
(** Where the matches from [i] on end, the preferred ones first. *)
Fixpoint tries (w : list N) (r : re) (i : nat) : list nat :=
  match r with
  | Empty => [i]
  | One p => match nth_error w i with Some c => if p c then [S i] else [] | None => [] end
  | Look f => if f w i then [i] else []
  | Cat a b => flat_map (tries w b) (tries w a i)
  | Alt a b => tries w a i ++ tries w b i
  | Rep min max greedy a =>
      match max with
      | None =>
          match min with
          | 0 => more_or greedy (plus (tries w a) greedy (S (length w)) i) i
          | S k => flat_map (plus (tries w a) greedy (S (length w))) (times (tries w a) k i)
          end
      | Some m => if min <=? m then flat_map (optional (tries w a) greedy (m - min)) (times (tries w a) min i) else []
      end
  end.

(** The first match that begins at one of the [n] places from [i] on. *)
Fixpoint search (w : list N) (r : re) (n i : nat) : option (nat * nat) :=
  match n with
  | 0 => None
  | S n' => match tries w r i with j :: _ => Some (i, j) | [] => search w r n' (S i) end
  end.
Definition search_from (w : list N) (r : re) (start : nat) : option (nat * nat) := search w r (S (length w) - start) start.
(** [last]: the end of the match before. *)
Fixpoint find_loop (fuel : nat) (w : list N) (r : re) (start : nat) (last : option nat) : list (nat * nat) :=
  match fuel with
  | 0 => []
  | S fuel' =>
      match search_from w r start with
      | None => []
      | Some (i, j) =>
          match (if (i =? j) && match last with Some l => l =? j | None => false end then search_from w r (S start) else Some (i, j)) with
          | None => []
          | Some (i, j) => (i, j) :: find_loop fuel' w r j (Some j)
          end
      end
  end.
Definition find_all (w : list N) (r : re) : list (nat * nat) := find_loop (length w + 2) w r 0 None.
Definition slice (w : list N) (m : nat * nat) : list N := firstn (snd m - fst m) (skipn (fst m) w).
(** [Regex::find_iter]: the texts of the matches. *)
Definition find_iter (r : re) (s : bytes) : list bytes := map (fun m => encode_string (slice (chars s) m)) (find_all (chars s) r).
