(** src/model.rs (without [populate_nodes], which is in Lattice.v) and the
    scored tokens of src/lib.rs. *)
From Verif Require Import Base F64 Utf8 Trie.
Set Implicit Arguments.

(** src/lib.rs:26-31 [struct ScoredToken]. *)
Record scored_token := ST { st_value : bytes; st_score : f64; st_keep : bool }.

(** src/lib.rs:70-72 [ScoredToken::len]. *)
Definition st_len (t : scored_token) : nat := length (st_value t).

(** src/lib.rs:54-60 [clone_with_score]. *)
Definition clone_with_score (t : scored_token) (score : f64) : scored_token :=
  ST (st_value t) score (st_keep t).

(** src/model.rs:8-12 [struct Model]. *)
Record model := Model {
  m_vocab : list scored_token;
  m_token_to_ids : list (bytes * N);
  m_trie : trie (N * N)
}.

(** src/model.rs:16-30 [Model::from]: the loop over [vocab.iter().enumerate()]. *)
Fixpoint from_loop (id : nat) (toks : list scored_token)
    (ids : list (bytes * N)) (t : trie (N * N)) : list (bytes * N) * trie (N * N) :=
  match toks with
  | [] => (ids, t)
  | tok :: toks' =>
      from_loop (S id) toks'
        (hm_insert bytes_eqb (st_value tok) (as_u32 id) ids)
        (t_push t (st_value tok) (as_u32 id, as_u32 (st_len tok)))
  end.
Definition model_from (vocab : list scored_token) : model :=
  let '(ids, t) := from_loop 0 vocab [] t_default in
  Model vocab ids t.

(** src/model.rs:184-194 [Model::add_tokens]. *)
Definition add_token (m : model) (tok : scored_token) : model :=
  let id := as_u32 (length (m_vocab m)) in
  Model (m_vocab m ++ [tok])
        (hm_insert bytes_eqb (st_value tok) id (m_token_to_ids m))
        (t_push (m_trie m) (st_value tok) (id, as_u32 (st_len tok))).
Definition add_tokens (m : model) (toks : list scored_token) : model :=
  fold_left add_token toks m.

(** src/model.rs:179-181 [Model::vocab_size]. *)
Definition vocab_size (m : model) : nat := length (m_vocab m).

(** src/model.rs:132-138 [Model::common_prefix_search], all items. *)
Definition common_prefix_search (m : model) (s : bytes) : list (N * N) :=
  ti_collect (t_common_prefix_search (m_trie m) s []).

(** src/model.rs:63-68 [struct Node] local to [encode]. *)
Record dp_node := DP { dp_id : N; dp_score : f64; dp_start : option nat }.

(** src/model.rs:100: the dropout part of the guard.  The random source is
    [rnd 0, rnd 1, ...]; [k] counts the draws already made; the draw happens
    only when the two tests before it fail. *)
Definition dropout_pass (rnd : nat -> f64) (dropout : f64) (len k : nat) : bool * nat :=
  if fleb dropout f0 then (true, k)
  else if len <=? 1 then (true, k)
  else (fltb dropout (rnd k), S k).

(** src/model.rs:92-109: the inner loop over the matches at [pos]. *)
Fixpoint encode_inner (vocab : list scored_token) (rnd : nat -> f64) (dropout : f64) (pos : nat)
    (matches : list (N * N)) (dp : list dp_node) (k : nat) : res (list dp_node * nat) :=
  match matches with
  | [] => Ok (dp, k)
  | (id, len32) :: matches' =>
      let len := N.to_nat len32 in
      node <- index dp (pos + len) ;;
      here <- index dp pos ;;
      tok <- index vocab (N.to_nat id) ;;
      let score := fadd (dp_score here) (st_score tok) in
      let '(pass, k') := dropout_pass rnd dropout len k in
      if pass && (is_none (dp_start node) || fltb (dp_score node) score) then
        dp' <- store dp (pos + len) (DP id score (Some pos)) ;;
        encode_inner vocab rnd dropout pos matches' dp' k'
      else encode_inner vocab rnd dropout pos matches' dp k'
  end.

(** src/model.rs:83-110: the loop over positions [pos, pos+1, ...], [n] of them;
    [suffix] is [&input[pos..]]. *)
Fixpoint encode_outer (m : model) (rnd : nat -> f64) (dropout : f64) (suffix : bytes) (pos : nat)
    (dp : list dp_node) (k : nat) : res (list dp_node) :=
  match suffix with
  | [] => Ok dp
  | _ :: suffix' =>
      here <- index dp pos ;;
      if is_none (dp_start here) then encode_outer m rnd dropout suffix' (S pos) dp k
      else
        '(dp', k') <- encode_inner (m_vocab m) rnd dropout pos (common_prefix_search m suffix) dp k ;;
        encode_outer m rnd dropout suffix' (S pos) dp' k'
  end.

(** src/model.rs:113-123: backtracking.  [ids] is the vector built so far (in push order). *)
Fixpoint backtrack (fuel : nat) (dp : list dp_node) (input_len pos : nat) (ids : list N) : res (list N) :=
  match pos with
  | 0 => Ok ids
  | S _ =>
      match fuel with
      | 0 => Diverge
      | S fuel' =>
          node <- index dp pos ;;
          match dp_start node with
          | None => Err (NoPath pos input_len)
          | Some start => backtrack fuel' dp input_len start (ids ++ [dp_id node])
          end
      end
  end.

(** src/model.rs:59-129 [Model::encode]. *)
Definition encode (m : model) (rnd : nat -> f64) (input : bytes) (dropout : f64) : res (list N) :=
  let dp0 := repeat (DP 0%N f0 None) (S (length input)) in
  let dp1 := update dp0 0 (DP 0%N f0 (Some 0)) in
  dp <- encode_outer m rnd dropout input 0 dp1 0 ;;
  ids <- backtrack (length input) dp (length input) (length input) [] ;;
  Ok (rev ids).

(** src/model.rs:149-157: the loop of [Model::decode] collecting bytes. *)
Fixpoint decode_bytes (m : model) (ids : list N) (acc : bytes) : res bytes :=
  match ids with
  | [] => Ok acc
  | id :: ids' =>
      if (as_u32 (vocab_size m) <=? id)%N then Err (TokenIdOutOfBounds id)
      else
        tok <- index (m_vocab m) (N.to_nat id) ;;
        decode_bytes m ids' (acc ++ st_value tok)
  end.

(** src/model.rs:146-160 [Model::decode]. *)
Definition decode (m : model) (ids : list N) : res bytes :=
  bs <- decode_bytes m ids [] ;;
  Ok (from_utf8_lossy bs).

(** src/model.rs:164-166 [Model::token_to_id]. *)
Definition token_to_id (m : model) (token : bytes) : option N :=
  hm_get bytes_eqb token (m_token_to_ids m).

(** src/model.rs:170-176 [Model::id_to_token].  The indexing can not fail: [id < len]. *)
Definition id_to_token (m : model) (id : N) : option scored_token :=
  if (as_u32 (vocab_size m) <=? id)%N then None
  else nth_error (m_vocab m) (N.to_nat id).

(** src/lib.rs:206-210 [new_default_vocab]. *)
Definition new_default_vocab : list scored_token :=
  map (fun n => ST (match Byte.of_N (N.of_nat n) with Some b => [b] | None => [] end)
                   (fdiv f1 (f64_of_Z 256)) false) (seq 0 256).

(** src/lib.rs:212-217 [make_vocab]. *)
Definition make_vocab (tokens : list (bytes * f64)) : list scored_token :=
  map (fun '(v, s) => ST v s false) tokens.
