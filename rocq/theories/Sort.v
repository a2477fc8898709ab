(** The sorting functions of Rust's standard library, as arguments of the model. *)
From Coq Require Export Permutation Sorted.
From Verif Require Import Base F64.
Set Implicit Arguments.

(** [sort_unstable_by], [sort_by_key], ...: what they return for a list, given the order [le] their comparison function
    stands for.  Which algorithm is used, and how it arranges elements that compare equal, is left open. *)
Definition sorter := forall A, (A -> A -> bool) -> list A -> list A.
Definition valid_sorter (s : sorter) : Prop := forall A (le : A -> A -> bool) l,
  (forall a b, In a l -> In b l -> le a b = true \/ le b a = true) ->
  (forall a b c, In a l -> In b l -> In c l -> le a b = true -> le b c = true -> le a c = true) ->
  Permutation l (s A le l) /\ StronglySorted (fun a b => le a b = true) (s A le l).

(** One of them. *)
Fixpoint insert_sorted {A} (le : A -> A -> bool) (a : A) (l : list A) : list A :=
  match l with
  | [] => [a]
  | b :: l' => if le a b then a :: l else b :: insert_sorted le a l'
  end.
Definition insertion_sort : sorter := fun A le l => fold_right (insert_sorted le) [] l.

(** [xs.sort_unstable_by(|a, b| key(a).partial_cmp(&key(b)).unwrap())] (ascending), and the same with [a] and [b] swapped
    (descending).  Nothing is compared in lists of less than two elements; in longer ones every element is compared with
    another one, so that a NaN key means a panic. *)
Definition sort_by_f64 {A} (s : sorter) (key : A -> f64) (l : list A) : res (list A) :=
  if length l <? 2 then Ok l
  else if existsb (fun a => f_is_nan (key a)) l then Panic
  else Ok (s A (fun a b => fleb (key a) (key b)) l).
Definition sort_by_f64_desc {A} (s : sorter) (key : A -> f64) (l : list A) : res (list A) :=
  if length l <? 2 then Ok l
  else if existsb (fun a => f_is_nan (key a)) l then Panic
  else Ok (s A (fun a b => fleb (key b) (key a)) l).

(** [xs.sort_unstable_by(|a, b| key(b).cmp(&key(a)))], [xs.sort_by_key(|a| Reverse(key(a)))] for integer keys. *)
Definition sort_by_nat_desc {A} (s : sorter) (key : A -> nat) (l : list A) : list A :=
  s A (fun a b => key b <=? key a) l.
