(** [BinaryHeap] of the Rust standard library (alloc::collections::binary_heap, Rust 1.76, not in /repo).

    [data] is the array of the heap.  The library uses unchecked accesses; here they are checked, and it is proved that none is
    out of bounds.  A [Hole] is the array, the element taken out and the position without an element; the array keeps the old
    element there. *)
From Verif Require Import Base.
Set Implicit Arguments.

Section Heap.
  Variable T : Type.
  (** Whether [cmp] answers [Less]; else it answers [Greater].  So [a <= b], which asks for [Less] or [Equal], is [a < b]. *)
  Variable less : T -> T -> bool.
  Definition heap_le (a b : T) : bool := less a b.

  (** [sift_up]: the loop.  [fuel]: the position is a bound for the number of turns. *)
  Fixpoint sift_up_loop (fuel : nat) (data : list T) (elt : T) (start pos : nat) : res (list T * nat) :=
    match fuel with
    | 0 => Ok (data, pos)
    | S fuel' =>
        if pos <=? start then Ok (data, pos)
        else
          let parent := (pos - 1) / 2 in
          p <- index data parent ;;
          if heap_le elt p then Ok (data, pos)
          else
            data <- store data pos p ;;
            sift_up_loop fuel' data elt start parent
    end.
  Definition sift_up (data : list T) (start pos : nat) : res (list T) :=
    elt <- index data pos ;;
    '(data, pos) <- sift_up_loop pos data elt start pos ;;
    store data pos elt.
  (** [push]. *)
  Definition heap_push (data : list T) (item : T) : res (list T) := sift_up (data ++ [item]) 0 (length data).

  (** [sift_down_to_bottom]: the loop, with the step after it. *)
  Fixpoint sift_down_loop (fuel : nat) (data : list T) (pos : nat) : res (list T * nat) :=
    let child := 2 * pos + 1 in
    match fuel with
    | 0 => Diverge
    | S fuel' =>
        if child <=? length data - 2 then
          a <- index data child ;;
          b <- index data (child + 1) ;;
          let child := if heap_le a b then child + 1 else child in
          c <- index data child ;;
          data <- store data pos c ;;
          sift_down_loop fuel' data child
        else if child =? length data - 1 then
          c <- index data child ;;
          data <- store data pos c ;;
          Ok (data, child)
        else Ok (data, pos)
    end.
  Definition sift_down_to_bottom (data : list T) (pos : nat) : res (list T) :=
    elt <- index data pos ;;
    '(data, at_) <- sift_down_loop (length data) data pos ;;
    data <- store data at_ elt ;;
    sift_up data pos at_.
  (** [pop]. *)
  Definition heap_pop (data : list T) : res (option (T * list T)) :=
    match rev data with
    | [] => Ok None
    | item :: rev_rest =>
        match rev rev_rest with
        | [] => Ok (Some (item, []))
        | top :: rest =>
            data <- sift_down_to_bottom (item :: rest) 0 ;;
            Ok (Some (top, data))
        end
    end.
End Heap.
