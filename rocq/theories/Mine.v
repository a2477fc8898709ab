(** src/mine.rs. *)
From Verif Require Import Base Sort Par.
Set Implicit Arguments.

Section Mine.
  (** [pattern.find_iter(sample)]: the matched substrings, in order. *)
  Variable find_all : bytes -> list bytes.

  (** src/mine.rs:27-34: the counts of one chunk. *)
  Definition chunk_idioms (chunk : list bytes) : list (bytes * nat) :=
    fold_left (fun m sample => fold_left (fun m part => add_count bytes_eqb m (part, 1)) (find_all sample) m) chunk [].

  (** src/mine.rs:21-48 [mine]: a possible result.  The hash maps are walked in any order ([Permutation]), the updates of the
      shared map by different chunks interleave in any way. *)
  Definition mine_result (s : sorter) (threads num_idioms : nat) (samples : list bytes) (result : list (bytes * nat)) : Prop :=
    exists updates schedule entries,
      Forall2 (fun chunk us => Permutation (chunk_idioms chunk) us) (chunks (par_chunk_size threads (length samples) 5) samples) updates /\
      Interleaving updates schedule /\
      Permutation (add_counts bytes_eqb [] schedule) entries /\
      result = firstn num_idioms (sort_by_nat_desc s snd entries).
End Mine.
