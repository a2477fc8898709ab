(** src/tokenizer.rs, without its serialisation (Serde.v). *)
From Verif Require Import Base F64 Utf8 Trie Model Processor.
Set Implicit Arguments.

(** src/tokenizer.rs:6-12 [struct Tokenizer]. *)
Record tokenizer := Tok {
  tk_model : model;
  tk_processors : list processor;
  tk_specials : list bytes;
  tk_specials_map : list (bytes * N)
}.

(** src/tokenizer.rs:39-53 [add_special_tokens]: one token, then the loop. *)
Definition add_special_token (t : tokenizer) (tok : bytes) : tokenizer :=
  if hm_contains bytes_eqb tok (tk_specials_map t) then t
  else Tok (tk_model t) (tk_processors t) (tk_specials t ++ [tok])
           (hm_insert bytes_eqb tok (as_u32 (length (tk_specials t))) (tk_specials_map t)).
Definition add_special_tokens (t : tokenizer) (toks : list bytes) : tokenizer :=
  fold_left add_special_token toks t.

(** src/tokenizer.rs:16-33 [Tokenizer::new]. *)
Definition tok_new (m : model) (ps : list processor) (specials : list bytes) : tokenizer :=
  add_special_tokens (Tok m ps [] []) specials.

(** src/tokenizer.rs:56-61 [add_base_tokens]. *)
Definition add_base_tokens (t : tokenizer) (toks : list scored_token) : tokenizer :=
  Tok (add_tokens (tk_model t) toks) (tk_processors t) (tk_specials t) (tk_specials_map t).

(** ** src/tokenizer.rs:299-346 [SpecialTokenSplitter] *)

(** [str::is_char_boundary]. *)
Definition is_char_boundary (s : bytes) (i : nat) : bool :=
  match i with
  | 0 => true
  | _ =>
      match nth_error s i with
      | None => i =? length s
      | Some b => negb (is_cont b)
      end
  end.

(** [&s[i..]] and [&s[..i]] on a [str]: panic off a character boundary. *)
Definition slice_from (s : bytes) (i : nat) : res bytes :=
  if is_char_boundary s i then Ok (skipn i s) else Panic.
Definition slice_to (s : bytes) (i : nat) : res bytes :=
  if is_char_boundary s i then Ok (firstn i s) else Panic.

(** src/tokenizer.rs:328-338: the inner loop over the special tokens: the first one that [suffix] starts with. *)
Fixpoint find_special (specials : list bytes) (suffix : bytes) : option bytes :=
  match specials with
  | [] => None
  | sp :: specials' => if starts_with suffix sp then Some sp else find_special specials' suffix
  end.

(** src/tokenizer.rs:325-339: the loop over [input.char_indices()].  The result is the
    item returned and the new cursor, if the loop returns. *)
Fixpoint split_scan (specials : list bytes) (input : bytes) (cursor : nat) (idx : list (nat * nat))
    : res (option ((bytes * bool) * nat)) :=
  match idx with
  | [] => Ok None
  | (i, _) :: idx' =>
      suffix <- slice_from input i ;;
      match find_special specials suffix with
      | Some sp =>
          if 0 <? i then
            piece <- slice_to input i ;;
            Ok (Some ((piece, false), cursor + i))
          else
            piece <- slice_to input (length sp) ;;
            Ok (Some ((piece, true), cursor + length sp))
      | None => split_scan specials input cursor idx'
      end
  end.

(** src/tokenizer.rs:318-346 [next]. *)
Definition split_next (specials : list bytes) (input : bytes) (cursor : nat)
    : res (option ((bytes * bool) * nat)) :=
  if length input <=? cursor then Ok None
  else
    rest <- slice_from input cursor ;;
    found <- split_scan specials rest cursor (char_indices rest) ;;
    match found with
    | Some r => Ok (Some r)
    | None => Ok (Some ((rest, false), length input))
    end.

Section Encode.
  Variable normalize : unicode_form -> bytes -> bytes.

  (** src/tokenizer.rs:65-89 [encode]: the loop over the splitter.  The random source
      is [rnd]: [rnd j] are the draws made while encoding the [j]-th piece. *)
  Fixpoint tok_encode_loop (fuel : nat) (t : tokenizer) (rnd : nat -> nat -> f64) (dropout : f64)
      (input : bytes) (cursor j : nat) (ids : list N) : res (list N) :=
    match fuel with
    | 0 => Diverge
    | S fuel' =>
        item <- split_next (tk_specials t) input cursor ;;
        match item with
        | None => Ok ids
        | Some ((substr, true), cursor') =>
            match hm_get bytes_eqb substr (tk_specials_map t) with
            | None => Panic
            | Some k =>
                tok_encode_loop fuel' t rnd dropout input cursor' (S j)
                  (ids ++ [u32_add (as_u32 (vocab_size (tk_model t))) k])
            end
        | Some ((substr, false), cursor') =>
            more <- encode (tk_model t) (rnd j) (preprocess_all normalize (tk_processors t) substr) dropout ;;
            tok_encode_loop fuel' t rnd dropout input cursor' (S j) (ids ++ more)
        end
    end.
  Definition tok_encode (fuel : nat) (t : tokenizer) (rnd : nat -> nat -> f64) (input : bytes)
      (dropout : f64) : res (list N) :=
    tok_encode_loop fuel t rnd dropout input 0 0 [].

  (** src/tokenizer.rs:92-99 [encode_ordinary]. *)
  Definition encode_ordinary (t : tokenizer) (rnd : nat -> f64) (input : bytes) (dropout : f64) : res (list N) :=
    encode (tk_model t) rnd (preprocess_all normalize (tk_processors t) input) dropout.
End Encode.

(** ** src/tokenizer.rs:126-176 [decode] *)

(** src/tokenizer.rs:132-134: [input.iter().position(|&id| id >= vocab_size as u32)]. *)
Fixpoint position_special (n : N) (ids : list N) : option nat :=
  match ids with
  | [] => None
  | id :: ids' =>
      if (n <=? id)%N then Some 0 else option_map S (position_special n ids')
  end.

(** src/tokenizer.rs:131-173: the loop. *)
Fixpoint tok_decode_loop (fuel : nat) (t : tokenizer) (incl : bool) (input : list N) (output : bytes)
    : res bytes :=
  match fuel with
  | 0 => Diverge
  | S fuel' =>
      let n := as_u32 (vocab_size (tk_model t)) in
      match position_special n input with
      | Some idx =>
          decoded <- decode (tk_model t) (firstn idx input) ;;
          let output := output ++ postprocess_all (tk_processors t) decoded in
          id <- index input idx ;;
          match nth_error (tk_specials t) (N.to_nat (id - n)) with
          | None => Err (TokenIdOutOfBounds id)
          | Some special =>
              let output := if incl then output ++ special else output in
              tok_decode_loop fuel' t incl (skipn (S idx) input) output
          end
      | None =>
          decoded <- decode (tk_model t) input ;;
          Ok (output ++ postprocess_all (tk_processors t) decoded)
      end
  end.

(** src/tokenizer.rs:126-176 [decode].  Every turn but the last consumes an id. *)
Definition tok_decode (t : tokenizer) (input : list N) (incl : bool) : res bytes :=
  tok_decode_loop (S (length input)) t incl input [].

(** ** Parallel batches *)

(** rayon's [into_par_iter().map(f).collect::<Result<Vec<_>, _>>()]: the items are
    run in some order [sched] (a permutation of the indices); the first one in that order that
    does not return Ok ends the batch with its outcome, otherwise the results
    are collected by index.  (Which of several failures is reported depends on the
    schedule only.) *)
Fixpoint par_run {A} (f : nat -> res A) (sched : list nat) : res unit :=
  match sched with
  | [] => Ok tt
  | i :: sched' => _ <- f i ;; par_run f sched'
  end.
Fixpoint collect_all {A} (f : nat -> res A) (idx : list nat) : res (list A) :=
  match idx with
  | [] => Ok []
  | i :: idx' => a <- f i ;; l <- collect_all f idx' ;; Ok (a :: l)
  end.
Definition par_collect {A} (f : nat -> res A) (n : nat) (sched : list nat) : res (list A) :=
  _ <- par_run f sched ;; collect_all f (seq 0 n).

(** src/tokenizer.rs:102-111 [encode_batch]: [encs] are the outcomes of encoding each input. *)
Definition encode_batch (normalize : unicode_form -> bytes -> bytes) (fuel : nat) (t : tokenizer)
    (rnd : nat -> nat -> nat -> f64) (inputs : list bytes) (dropout : f64) (sched : list nat)
    : res (list (list N)) :=
  par_collect (fun i => tok_encode normalize fuel t (rnd i) (nth i inputs []) dropout) (length inputs) sched.

(** src/tokenizer.rs:114-123 [encode_ordinary_batch]. *)
Definition encode_ordinary_batch (normalize : unicode_form -> bytes -> bytes) (t : tokenizer)
    (rnd : nat -> nat -> f64) (inputs : list bytes) (dropout : f64) (sched : list nat)
    : res (list (list N)) :=
  par_collect (fun i => encode_ordinary normalize t (rnd i) (nth i inputs []) dropout) (length inputs) sched.

(** src/tokenizer.rs:178-187 [decode_batch]. *)
Definition decode_batch (t : tokenizer) (inputs : list (list N)) (incl : bool) (sched : list nat)
    : res (list bytes) :=
  par_collect (fun i => tok_decode t (nth i inputs []) incl) (length inputs) sched.

(** ** Lookups *)

(** src/tokenizer.rs:203-207 [special_token_to_id]. *)
Definition special_token_to_id (t : tokenizer) (tok : bytes) : option N :=
  option_map (fun id => u32_add id (as_u32 (vocab_size (tk_model t)))) (hm_get bytes_eqb tok (tk_specials_map t)).

(** src/tokenizer.rs:209-211 [base_token_to_id]. *)
Definition base_token_to_id (t : tokenizer) (tok : bytes) : option N := token_to_id (tk_model t) tok.

(** src/tokenizer.rs:189-201 [token_to_id]. *)
Definition tok_token_to_id (t : tokenizer) (tok : bytes) : option N :=
  match base_token_to_id t tok with
  | Some id => Some id
  | None => if utf8_ok tok then special_token_to_id t tok else None
  end.

(** src/tokenizer.rs:219-226 [id_to_special_token]. *)
Definition id_to_special_token (t : tokenizer) (id : N) : option bytes :=
  let n := as_u32 (vocab_size (tk_model t)) in
  if (id <? n)%N then None else nth_error (tk_specials t) (N.to_nat (id - n)).

(** src/tokenizer.rs:228-230 [id_to_base_token]. *)
Definition id_to_base_token (t : tokenizer) (id : N) : option scored_token := id_to_token (tk_model t) id.

(** src/tokenizer.rs:213-217 [id_to_token]. *)
Definition tok_id_to_token (t : tokenizer) (id : N) : option bytes :=
  match id_to_special_token t id with
  | Some s => Some s
  | None => option_map st_value (id_to_base_token t id)
  end.

(** src/tokenizer.rs:232-239 [is_special]. *)
Definition is_special (t : tokenizer) (id : N) : bool :=
  let n := as_u32 (vocab_size (tk_model t)) in
  if (id <? n)%N then false
  else match nth_error (tk_specials t) (N.to_nat (id - n)) with Some _ => true | None => false end.

(** src/tokenizer.rs:241-243 [is_base]. *)
Definition is_base (t : tokenizer) (id : N) : bool := (id <? as_u32 (vocab_size (tk_model t)))%N.

(** src/tokenizer.rs:245-259 [special_tokens], [vocab_size], [base_vocab_size], [special_vocab_size]. *)
Definition special_tokens (t : tokenizer) : list bytes := tk_specials t.
Definition tok_vocab_size (t : tokenizer) : nat := vocab_size (tk_model t) + length (tk_specials t).
Definition base_vocab_size (t : tokenizer) : nat := vocab_size (tk_model t).
Definition special_vocab_size (t : tokenizer) : nat := length (tk_specials t).

(** src/tokenizer.rs:267-277 [model], [processors], [into_inner]. *)
Definition into_inner (t : tokenizer) : model * list processor * list bytes :=
  (tk_model t, tk_processors t, tk_specials t).
