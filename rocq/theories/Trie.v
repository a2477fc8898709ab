(** src/trie.rs *)
From Verif Require Import Base.
Set Implicit Arguments.

(** src/trie.rs:74-78 [struct Node]; [Trie] (6-9) is its root node.
    Children are keyed by byte in a hash map. *)
Inductive trie (A : Type) :=
| TNode (data : option A) (children : list (byte * trie A)).
Arguments TNode {A} data children.

Definition t_data {A} (t : trie A) : option A := match t with TNode d _ => d end.
Definition t_children {A} (t : trie A) : list (byte * trie A) := match t with TNode _ c => c end.

(** src/trie.rs:80-87 and 66-72, [Default]. *)
Definition t_default {A} : trie A := TNode None [].

(** src/trie.rs:12-20 [Trie::push].  The cursor [node] walks down with
    [children.entry(b).or_default()]; here the rebuilt path is returned. *)
Fixpoint t_push {A} (t : trie A) (element : bytes) (d : A) : trie A :=
  match element with
  | [] => TNode (Some d) (t_children t)
  | b :: element' =>
      let child := match hm_get Byte.eqb b (t_children t) with
                   | Some c => c
                   | None => t_default
                   end in
      TNode (t_data t) (hm_insert Byte.eqb b (t_push child element' d) (t_children t))
  end.

(** src/trie.rs:38-42 [struct TrieIterator]. *)
Record trie_iter (A : Type) := TrieIter {
  ti_node : trie A;
  ti_prefix : bytes;
  ti_iterator : bytes
}.
Arguments TrieIter {A}.

(** src/trie.rs:22-35 [Trie::common_prefix_search]. *)
Definition t_common_prefix_search {A} (t : trie A) (iterator prefix : bytes) : trie_iter A :=
  TrieIter t prefix iterator.

(** src/trie.rs:51-63 [TrieIterator::next]. *)
Fixpoint ti_next_loop {A} (node : trie A) (prefix iterator : bytes) : option A * trie_iter A :=
  match iterator with
  | [] => (None, TrieIter node prefix [])
  | b :: iterator' =>
      let prefix' := prefix ++ [b] in
      match hm_get Byte.eqb b (t_children node) with
      | None => (None, TrieIter node prefix' iterator')
      | Some child =>
          match t_data child with
          | Some d => (Some d, TrieIter child prefix' iterator')
          | None => ti_next_loop child prefix' iterator'
          end
      end
  end.
Definition ti_next {A} (it : trie_iter A) : option A * trie_iter A :=
  ti_next_loop (ti_node it) (ti_prefix it) (ti_iterator it).

(** A [for] loop over the iterator: the items up to the first [None].  Every
    item consumes at least one byte, so [S (length iterator)] calls suffice. *)
Fixpoint ti_collect_fuel {A} (fuel : nat) (it : trie_iter A) : list A :=
  match fuel with
  | 0 => []
  | S fuel' =>
      match ti_next it with
      | (Some d, it') => d :: ti_collect_fuel fuel' it'
      | (None, _) => []
      end
  end.
Definition ti_collect {A} (it : trie_iter A) : list A :=
  ti_collect_fuel (S (length (ti_iterator it))) it.
