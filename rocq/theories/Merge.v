(** src/merge.rs. *)
From Verif Require Import Base F64 Utf8 Trie Model Sort Par.
Set Implicit Arguments.

(** src/merge.rs:8-14 [struct ModelVocabularyMerger]; [mc_allow] is the regex' [is_match]. *)
Record merge_cfg := MergeCfg {
  mc_allow : bytes -> bool;
  mc_num_merges : nat;
  mc_step : nat;
  mc_scale_factor : f64;
  mc_max_token_length : nat
}.

Definition pair_eqb (p q : N * N) : bool := N.eqb (fst p) (fst q) && N.eqb (snd p) (snd q).

(** src/merge.rs:60-63: the pairs of neighbours in an encoding. *)
Definition pairs_in (ids : list N) : list (N * N) := combine ids (tl ids).

(** src/merge.rs:55-66: the local counts of one chunk, given the encodings of its samples. *)
Definition chunk_pairs (chunk : list (list N)) : list ((N * N) * nat) :=
  fold_left (fun m ids => fold_left (fun m pair => add_count pair_eqb m (pair, 1)) (pairs_in ids) m) chunk [].

(** src/merge.rs:99-106: the token made of the tokens [a] and [b]. *)
Definition merged_token (c : merge_cfg) (a b : scored_token) : scored_token :=
  ST (st_value a ++ st_value b) (fmul (fadd (st_score a) (st_score b)) (mc_scale_factor c)) false.

(** src/merge.rs:108-110: is the merge refused? *)
Definition refused (c : merge_cfg) (token : scored_token) : bool :=
  (mc_max_token_length c <? st_len token) || negb (mc_allow c (from_utf8_lossy (st_value token))).

(** src/merge.rs:92-127: the loop over the pairs.  The set [ignore] only decides what is logged, and is left out. *)
Fixpoint merge_scan (c : merge_cfg) (pairs : list ((N * N) * nat)) (m : model) (merges : nat) : res (model * nat) :=
  match pairs with
  | [] => Ok (m, merges)
  | ((a, b), _) :: pairs' =>
      if merges =? 0 then Ok (m, merges)
      else
        ta <- index (m_vocab m) (N.to_nat a) ;;
        tb <- index (m_vocab m) (N.to_nat b) ;;
        let token := merged_token c ta tb in
        if refused c token then merge_scan c pairs' m merges
        else merge_scan c pairs' (add_tokens m [token]) (merges - 1)
  end.

Section Merge.
  Variable s : sorter.
  Variable threads : nat.
  Variable c : merge_cfg.
  Variable samples : list bytes.
  (** [start_vocab_size]. *)
  Variable start : nat.

  (** src/merge.rs:39-127: a possible result of one round of the loop: the model and what is left of [merges].
      Every chunk's counts are added to the shared map under a lock, in any order ([order]) of the chunks; the hash maps are
      walked in any order.  An error of [encode] is a panic ([unwrap]), which rayon passes on to the caller.  (The chunks are
      taken from the list of encodings instead of the list of samples.) *)
  Inductive merge_round (m : model) : res (model * nat) -> Prop :=
  | round_panics sample :
      In sample samples -> (forall ids, encode m (fun _ => f0) sample f0 <> Ok ids) -> merge_round m Panic
  | round_ends encodings updates order entries :
      Forall2 (fun sample ids => encode m (fun _ => f0) sample f0 = Ok ids) samples encodings ->
      Forall2 (fun chunk us => Permutation (chunk_pairs chunk) us) (chunks (par_chunk_size threads (length samples) 4) encodings) updates ->
      Permutation updates order ->
      Permutation (add_counts pair_eqb [] (concat order)) entries ->
      merge_round m (merge_scan c (sort_by_nat_desc s snd entries) m
                       (Nat.min (mc_step c) (mc_num_merges c - (vocab_size m - start)))).

  (** src/merge.rs:38-135: [merge_rounds m m']: the loop may go from [m] to [m'] in some rounds, without leaving. *)
  Inductive merge_rounds : nat -> model -> model -> Prop :=
  | rounds_none m : merge_rounds 0 m m
  | rounds_more k m m1 left m2 :
      merge_rounds k m m1 -> vocab_size m1 < start + mc_num_merges c ->
      merge_round m1 (Ok (m2, left)) -> left <> mc_step c -> merge_rounds (S k) m m2.

  (** A possible result of the loop. *)
  Inductive merge_loop (m : model) : res model -> Prop :=
  | loop_done k m' : merge_rounds k m m' -> start + mc_num_merges c <= vocab_size m' -> merge_loop m (Ok m')
  | loop_break k m' m'' : merge_rounds k m m' -> vocab_size m' < start + mc_num_merges c ->
      merge_round m' (Ok (m'', mc_step c)) -> merge_loop m (Ok m'')
  | loop_panic k m' : merge_rounds k m m' -> vocab_size m' < start + mc_num_merges c ->
      merge_round m' Panic -> merge_loop m Panic.
End Merge.

(** src/merge.rs:33-136 [merge]: a possible result. *)
Definition merge_result (s : sorter) (threads : nat) (c : merge_cfg) (m : model) (samples : list bytes) (r : res model) : Prop :=
  merge_loop s threads c samples (vocab_size m) m r.
