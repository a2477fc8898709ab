(** Common vocabulary of the model: bytes, results, indexed access, hash maps.
    Nothing here is specific to one file of /repo. *)
From Coq Require Export List Arith NArith ZArith Lia Bool.
From Coq.Strings Require Export Byte.
Export ListNotations.
Set Implicit Arguments.

(** [u8] *)
Notation byte := Byte.byte.
(** [&[u8]], [Vec<u8>], and (with the validity invariant stated separately) [&str], [String]. *)
Definition bytes := list byte.

(** src/lib.rs:219-224, [enum Error].  The payloads of [IO] and [SerdeJSON]
    (texts produced by dependencies) are not modelled. *)
Inductive error :=
| IO
| SerdeJSON
| TokenIdOutOfBounds (id : N)
| NoPath (pos len : nat).

(** [Result<A, Error>] together with the two ways a Rust call can fail to
    return: a panic, and a loop that does not end. *)
Inductive res (A : Type) :=
| Ok (a : A)
| Err (e : error)
| Panic
| Diverge.
Arguments Ok {A} a.
Arguments Err {A} e.
Arguments Panic {A}.
Arguments Diverge {A}.

(** The [?] operator / sequencing. *)
Definition bind {A B} (x : res A) (k : A -> res B) : res B :=
  match x with
  | Ok a => k a
  | Err e => Err e
  | Panic => Panic
  | Diverge => Diverge
  end.
Notation "x <- e ;; k" := (bind e (fun x => k))
  (at level 61, e at next level, right associativity).
Notation "' pat <- e ;; k" := (bind e (fun x => match x with pat => k end))
  (at level 61, pat pattern, e at next level, right associativity).

(** [xs[i]]: panics when out of bounds. *)
Definition index {A} (l : list A) (i : nat) : res A :=
  match nth_error l i with Some a => Ok a | None => Panic end.

(** [xs[i] = a], for an index in bounds. *)
Fixpoint update {A} (l : list A) (i : nat) (a : A) : list A :=
  match l, i with
  | [], _ => []
  | _ :: l', 0 => a :: l'
  | x :: l', S i' => x :: update l' i' a
  end.

(** [xs[i] = a]: panics when out of bounds. *)
Definition store {A} (l : list A) (i : nat) (a : A) : res (list A) :=
  if i <? length l then Ok (update l i a) else Panic.

(** [Option::is_none]. *)
Definition is_none {A} (o : option A) : bool :=
  match o with None => true | Some _ => false end.

(** [n as u32] for a [usize] n: truncation. *)
Definition as_u32 (n : nat) : N := (N.of_nat n mod 2 ^ 32)%N.

(** [u32 + u32] as compiled in release mode (wrapping); a debug build panics
    instead.  Theorems bound the operands so that neither happens. *)
Definition u32_add (a b : N) : N := ((a + b) mod 2 ^ 32)%N.

(** Equality of byte strings. *)
Fixpoint bytes_eqb (a b : bytes) : bool :=
  match a, b with
  | [], [] => true
  | x :: a', y :: b' => Byte.eqb x y && bytes_eqb a' b'
  | _, _ => false
  end.

(** [s.starts_with(p)] on byte strings. *)
Fixpoint starts_with (s p : bytes) : bool :=
  match p, s with
  | [], _ => true
  | y :: p', x :: s' => Byte.eqb x y && starts_with s' p'
  | _ :: _, [] => false
  end.

(** A [HashMap] as an association list.  [insert] replaces the value of an
    existing key; iteration order is never taken from this list by the model. *)
Section HashMap.
  Context {K V : Type} (eqb : K -> K -> bool).

  Fixpoint hm_get (k : K) (m : list (K * V)) : option V :=
    match m with
    | [] => None
    | (k', v) :: m' => if eqb k k' then Some v else hm_get k m'
    end.

  Fixpoint hm_insert (k : K) (v : V) (m : list (K * V)) : list (K * V) :=
    match m with
    | [] => [(k, v)]
    | (k', v') :: m' => if eqb k k' then (k, v) :: m' else (k', v') :: hm_insert k v m'
    end.

  Definition hm_contains (k : K) (m : list (K * V)) : bool :=
    match hm_get k m with Some _ => true | None => false end.
End HashMap.
