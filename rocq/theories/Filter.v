(** src/filter.rs. *)
From Verif Require Import Base F64 Trie Model Sort.
Set Implicit Arguments.

(** src/filter.rs:3-7 [struct VocabularyFilter]. *)
Record filter_cfg := FilterCfg { fc_vocab_size : nat; fc_min_score : option f64; fc_force : bool }.

(** src/filter.rs:34-45: the loop; [out] is [new_vocab], [removed] is [num_tokens_removed]. *)
Fixpoint filter_loop (c : filter_cfg) (to_remove : nat) (vocab : list scored_token) (removed : nat) (out : list scored_token)
    : list scored_token :=
  match vocab with
  | [] => out
  | token :: vocab' =>
      let should_keep := (to_remove <=? removed) || (st_keep token && negb (fc_force c))
        || fltb (match fc_min_score c with Some m => m | None => fninf end) (st_score token) in
      if should_keep then filter_loop c to_remove vocab' removed (out ++ [token])
      else filter_loop c to_remove vocab' (S removed) out
  end.

(** src/filter.rs:20-49 [filter].  [s1], [s2] are the two calls of [sort_unstable_by]. *)
Definition filter_model (s1 s2 : sorter) (c : filter_cfg) (m : model) : res model :=
  if vocab_size m <=? fc_vocab_size c then Ok m
  else
    let to_remove := vocab_size m - fc_vocab_size c in
    vocab <- sort_by_f64 s1 st_score (m_vocab m) ;;
    let new_vocab := filter_loop c to_remove vocab 0 [] in
    new_vocab' <- sort_by_f64_desc s2 st_score new_vocab ;;
    Ok (model_from new_vocab').
