(** src/prune.rs. *)
From Coq Require Import Permutation.
From Verif Require Import Base F64 Trie Model Sort Par Lattice.
Set Implicit Arguments.

(** src/prune.rs:6-11 [struct ModelVocabularyPruner]. *)
Record prune_cfg := PruneCfg { pc_vocab_size : nat; pc_shrink_factor : f64; pc_em_subiters : nat; pc_dropout : f64 }.

(** [MAX_SAMPLE_LENGTH], src/prune.rs:75. *)
Definition max_sample_length : nat := N.to_nat 81920.

(** [for (acc, x) in accs.iter_mut().zip(xs) { *acc += x }]. *)
Fixpoint zip_add {A} (add : A -> A -> A) (accs xs : list A) : list A :=
  match accs, xs with
  | a :: accs', x :: xs' => add a x :: zip_add add accs' xs'
  | _, _ => accs
  end.

(** ** E-step *)
(** Written over any arithmetic, as the lattice.  For the program, [conv] is the identity and [normal] is [f64::is_normal]. *)
Section EStep.
  Context {S : Type} (A : arith S) (conv : f64 -> S) (normal : S -> bool).
  (** The number of threads of rayon's pool. *)
  Variable threads : nat.

  (** src/prune.rs:83-99: the snippets of a sample; [k] counts the random draws. *)
  Fixpoint e_snippets (c : prune_cfg) (m : model) (rnd : nat -> f64) (snippets : list bytes) (l : lattice S) (p : pool) (k : nat)
      (expected : list S) : res (lattice S * pool * nat * list S) :=
    match snippets with
    | [] => Ok (l, p, k, expected)
    | s :: snippets' =>
        '(l, p) <- lattice_from A l s p ;;
        '(l, k) <- populate_nodes A conv m rnd (pc_dropout c) l k ;;
        '(expected, z) <- populate_marginal A l expected ;;
        if normal z then e_snippets c m rnd snippets' l p k expected else Panic
    end.
  (** src/prune.rs:82-102: the samples of a chunk.  [debug_assert!] at 84 can not fail: an empty sample has no snippets. *)
  Fixpoint e_samples (c : prune_cfg) (m : model) (rnd : nat -> f64) (samples : list bytes) (l : lattice S) (p : pool) (k : nat)
      (expected : list S) : res (list S) :=
    match samples with
    | [] => Ok expected
    | s :: samples' =>
        '(l, p, k, expected) <- e_snippets c m rnd (chunks max_sample_length s) l p k expected ;;
        e_samples c m rnd samples' l p k expected
    end.
  Definition e_chunk (c : prune_cfg) (m : model) (rnd : nat -> f64) (chunk : list bytes) : res (list S) :=
    e_samples c m rnd chunk lattice_new (pool_with_capacity max_sample_length 16) 0 (repeat (a_zero A) (vocab_size m)).

  (** src/prune.rs:64-120 [run_e_step]: a possible result.  The chunk number [i] draws the random numbers [rnds i]; the
      chunks are added to the result in any order.  A panic of one chunk is a panic of the whole. *)
  Inductive estep_result (c : prune_cfg) (m : model) (samples : list bytes) : res (list S) -> Prop :=
  | e_step_ok rnds locals order :
      let cs := chunks (par_chunk_size threads (length samples) 8) samples in
      length locals = length cs ->
      (forall i chunk local, nth_error cs i = Some chunk -> nth_error locals i = Some local -> e_chunk c m (rnds i) chunk = Ok local) ->
      Permutation locals order ->
      estep_result c m samples (Ok (fold_left (zip_add (a_add A)) order (repeat (a_zero A) (vocab_size m))))
  | e_step_panic rnd chunk :
      In chunk (chunks (par_chunk_size threads (length samples) 8) samples) -> e_chunk c m rnd chunk = Panic ->
      estep_result c m samples Panic.
End EStep.

Section Prune.
  (** The functions [f64::exp] and [f64::ln] of the platform. *)
  Variables (exp ln : f64 -> f64).
  (** The number of threads of rayon's pool. *)
  Variable threads : nat.
  Let A := f64_arith exp ln.

  (** src/prune.rs:64-120 [run_e_step]. *)
  Definition e_step_result : prune_cfg -> model -> list bytes -> res (list f64) -> Prop :=
    estep_result A (fun x => x) f_is_normal threads.

  (** ** M-step *)
  (** src/prune.rs:322-327: the loop of [digamma]. *)
  Fixpoint digamma_loop (fuel : nat) (x result : f64) : res (f64 * f64) :=
    if fltb x (f64_of_Z 7) then
      match fuel with
      | 0 => Diverge
      | S fuel' => digamma_loop fuel' (fadd x f1) (fsub result (fdiv f1 x))
      end
    else Ok (x, result).
  (** src/prune.rs:322-335 [digamma]. *)
  Definition digamma (fuel : nat) (x : f64) : res f64 :=
    '(x, result) <- digamma_loop fuel x f0 ;;
    let x := fsub x (fdiv f1 (f64_of_Z 2)) in
    let xx := fdiv f1 x in
    let xx2 := fmul xx xx in
    let xx4 := fmul xx2 xx2 in
    let series :=
      fsub (fadd (fsub (fadd (ln x) (fmul (fdiv f1 (f64_of_Z 24)) xx2)) (fmul (fdiv (f64_of_Z 7) (f64_of_Z 960)) xx4))
                 (fmul (fmul (fdiv (f64_of_Z 31) (f64_of_Z 8064)) xx4) xx2))
           (fmul (fmul (fdiv (f64_of_Z 127) (f64_of_Z 30720)) xx4) xx4) in
    Ok (fadd result series).

  (** src/prune.rs:131-138: which tokens go on, with their frequency in place of the score.  0.5 is the threshold. *)
  Fixpoint m_select (freqs : list f64) (vocab : list scored_token) : list scored_token :=
    match freqs, vocab with
    | freq :: freqs', token :: vocab' =>
        if fltb freq fhalf && negb (st_keep token) then m_select freqs' vocab'
        else clone_with_score token (fmax freq fhalf) :: m_select freqs' vocab'
    | _, _ => []
    end.
  (** src/prune.rs:148-151: [map(..).collect()]. *)
  Fixpoint m_scores (fuel : nat) (logsum : f64) (tokens : list scored_token) : res (list f64) :=
    match tokens with
    | [] => Ok []
    | t :: tokens' =>
        d <- digamma fuel (st_score t) ;;
        rest <- m_scores fuel logsum tokens' ;;
        Ok (fsub d logsum :: rest)
    end.
  (** src/prune.rs:164-168: [zip] and [clone_with_score]. *)
  Fixpoint with_scores (tokens : list scored_token) (scores : list f64) : list scored_token :=
    match tokens, scores with
    | t :: tokens', s :: scores' => clone_with_score t s :: with_scores tokens' scores'
    | _, _ => []
    end.
  (** src/prune.rs:124-170 [run_m_step].  [fuel] bounds the turns of every loop of [digamma].  [sum::<f64>()] starts with 0.0
      (newer versions of Rust: with -0.0, which makes no difference for a list with a number other than -0.0 in it, and an
      empty vocabulary has no scores). *)
  Definition m_step (fuel : nat) (m : model) (freqs : list f64) : res (list scored_token) :=
    if vocab_size m =? length freqs then
      let alternative := m_select freqs (m_vocab m) in
      logsum <- digamma fuel (fold_left (fun x t => fadd x (st_score t)) alternative f0) ;;
      scores <- m_scores fuel logsum alternative ;;
      if existsb (fun x => f_is_nan x || f_is_infinite x) scores then Panic
      else Ok (with_scores alternative scores)
    else Panic.

  (** ** Pruning *)
  (** src/prune.rs:190-204: what the two best paths of a token say: whether it is [always_keep], and its alternatives. *)
  Definition judge (nbests : list (list (node f64))) : bool * list N :=
    match nbests with
    | best :: second :: _ =>
        (negb (1 <? length best), if length best =? 1 then map (fun n => n_token_id n) second else [])
    | _ => (true, [])
    end.
  (** src/prune.rs:182-205: the loop over the vocabulary; [judged] has one entry per token so far ([always_keep] and
      [alternatives] of the program). *)
  Inductive judge_result (m : model) : list scored_token -> lattice f64 -> pool -> list (bool * list N) -> res (list (bool * list N)) -> Prop :=
  | judge_done l p judged : judge_result m [] l p judged (Ok judged)
  | judge_token t toks l p judged l1 p1 l2 k l3 nbests r :
      lattice_from A l (st_value t) p = Ok (l1, p1) -> populate_nodes A (fun x => x) m (fun _ => f0) f0 l1 0 = Ok (l2, k) ->
      nbest_result A l2 2 (Ok (l3, nbests)) -> judge_result m toks l3 p1 (judged ++ [judge nbests]) r ->
      judge_result m (t :: toks) l p judged r
  | judge_panic t toks l p judged :
      ('(l1, p1) <- lattice_from A l (st_value t) p ;; populate_nodes A (fun x => x) m (fun _ => f0) f0 l1 0) = Panic ->
      judge_result m (t :: toks) l p judged Panic
  | judge_nbest_panic t toks l p judged l1 p1 l2 k :
      lattice_from A l (st_value t) p = Ok (l1, p1) -> populate_nodes A (fun x => x) m (fun _ => f0) f0 l1 0 = Ok (l2, k) ->
      nbest_result A l2 2 Panic -> judge_result m (t :: toks) l p judged Panic.

  (** src/prune.rs:224-226: [frequencies[id] += 1] for the tokens of a sample. *)
  Fixpoint count_ids (ids : list N) (freqs : list nat) : res (list nat) :=
    match ids with
    | [] => Ok freqs
    | id :: ids' => x <- index freqs (N.to_nat id) ;; freqs <- store freqs (N.to_nat id) (x + 1) ;; count_ids ids' freqs
    end.
  (** src/prune.rs:218-229: the samples of a chunk.  With dropout 0 [encode] draws no random numbers.  The only error of
      [encode] is [NoPath], which is passed on. *)
  Fixpoint count_samples (m : model) (samples : list bytes) (freqs : list nat) : res (list nat) :=
    match samples with
    | [] => Ok freqs
    | s :: samples' =>
        ids <- encode m (fun _ => f0) s f0 ;;
        freqs <- count_ids ids freqs ;;
        count_samples m samples' freqs
    end.
  Definition count_chunk (m : model) (chunk : list bytes) : res (list nat) := count_samples m chunk (repeat 0 (vocab_size m)).
  (** src/prune.rs:207-245: a possible result.  The chunks are added in any order.  When some fail, one of their errors is the
      result, or one of their panics. *)
  Inductive count_result (m : model) (samples : list bytes) : res (list nat) -> Prop :=
  | count_ok locals order :
      let cs := chunks (par_chunk_size threads (length samples) 2) samples in
      length locals = length cs ->
      (forall i chunk local, nth_error cs i = Some chunk -> nth_error locals i = Some local -> count_chunk m chunk = Ok local) ->
      Permutation locals order ->
      count_result m samples (Ok (fold_left (zip_add Nat.add) order (repeat 0 (vocab_size m))))
  | count_err chunk e :
      In chunk (chunks (par_chunk_size threads (length samples) 2) samples) -> count_chunk m chunk = Err e -> count_result m samples (Err e)
  | count_panic chunk :
      In chunk (chunks (par_chunk_size threads (length samples) 2) samples) -> count_chunk m chunk = Panic -> count_result m samples Panic.

  (** src/prune.rs:280-285: [alt_logprob]. *)
  Fixpoint alt_logprob (freqs : list nat) (freq alt_logsum : f64) (alts : list N) (acc : f64) : res f64 :=
    match alts with
    | [] => Ok acc
    | a :: alts' =>
        x <- index freqs (N.to_nat a) ;;
        alt_logprob freqs freq alt_logsum alts' (fadd acc (fsub (ln (fadd (f64_of_nat x) freq)) alt_logsum))
    end.
  (** src/prune.rs:269-287: the loss of a token of frequency [n]; [num_alternatives] is [alternatives.len()], the size of the
      vocabulary. *)
  Definition loss (freqs : list nat) (num_alternatives num_samples : nat) (n : nat) (alts : list N) : res f64 :=
    let sum := f64_of_nat (list_sum freqs) in
    let logsum := ln sum in
    let freq := f64_of_nat n in
    let logprob := fsub (ln freq) logsum in
    let alt_logsum := ln (fadd sum (fmul freq (f64_of_nat (num_alternatives - 1)))) in
    alt <- alt_logprob freqs freq alt_logsum alts f0 ;;
    Ok (fmul (fdiv freq (f64_of_nat num_samples)) (fsub logprob alt)).

  (** src/prune.rs:257-298: the loop over the vocabulary from [id] on: [pruned_vocab] and [candidates]. *)
  Fixpoint sift (freqs : list nat) (judged : list (bool * list N)) (num_alternatives num_samples : nat) (id : nat)
      (toks : list scored_token) (pruned : list scored_token) (candidates : list (nat * f64)) : res (list scored_token * list (nat * f64)) :=
    match toks with
    | [] => Ok (pruned, candidates)
    | t :: toks' =>
        if st_keep t then sift freqs judged num_alternatives num_samples (id + 1) toks' (pruned ++ [t]) candidates
        else
          n <- index freqs id ;;
          '(always_keep, alts) <- index judged id ;;
          if (n =? 0) && negb always_keep then sift freqs judged num_alternatives num_samples (id + 1) toks' pruned candidates
          else if (match alts with [] => true | _ => false end) then
            sift freqs judged num_alternatives num_samples (id + 1) toks' (pruned ++ [t]) candidates
          else if negb (n =? 0) then
            x <- loss freqs num_alternatives num_samples n alts ;;
            if f_is_normal x then sift freqs judged num_alternatives num_samples (id + 1) toks' pruned (candidates ++ [(id, x)])
            else Panic
          else sift freqs judged num_alternatives num_samples (id + 1) toks' pruned candidates
    end.
  (** src/prune.rs:307-312: the best candidates fill up the vocabulary. *)
  Fixpoint fill (vocab : list scored_token) (pruned_size : nat) (candidates : list (nat * f64)) (pruned : list scored_token)
      : res (list scored_token) :=
    match candidates with
    | [] => Ok pruned
    | (id, _) :: candidates' =>
        if length pruned =? pruned_size then Ok pruned
        else t <- index vocab id ;; fill vocab pruned_size candidates' (pruned ++ [t])
    end.
  (** src/prune.rs:174-175. *)
  Definition pruned_size (c : prune_cfg) (m : model) : nat :=
    Nat.max (f64_as_usize (fmul (f64_of_nat (vocab_size m)) (pc_shrink_factor c))) (pc_vocab_size c).
  (** src/prune.rs:246-316: what follows the two loops.  [s1], [s2] are the two calls of [sort_unstable_by]. *)
  Definition choose (s1 s2 : sorter) (c : prune_cfg) (m : model) (num_samples : nat) (judged : list (bool * list N)) (freqs : list nat)
      : res (list scored_token) :=
    '(pruned, candidates) <- sift freqs judged (vocab_size m) num_samples 0 (m_vocab m) [] [] ;;
    candidates <- sort_by_f64_desc s1 (fun x => snd x) candidates ;;
    pruned <- fill (m_vocab m) (pruned_size c m) candidates pruned ;;
    sort_by_f64_desc s2 st_score pruned.
  (** src/prune.rs:173-319 [prune_vocab]: a possible result. *)
  Inductive prune_vocab_result (s1 s2 : sorter) (c : prune_cfg) (m : model) (samples : list bytes) : res (list scored_token) -> Prop :=
  | prune_vocab_chosen judged freqs :
      judge_result m (m_vocab m) lattice_new (pool_with_capacity 32 16) [] (Ok judged) -> count_result m samples (Ok freqs) ->
      prune_vocab_result s1 s2 c m samples (choose s1 s2 c m (length samples) judged freqs)
  | prune_vocab_judge_panic :
      judge_result m (m_vocab m) lattice_new (pool_with_capacity 32 16) [] Panic -> prune_vocab_result s1 s2 c m samples Panic
  | prune_vocab_count_err judged e :
      judge_result m (m_vocab m) lattice_new (pool_with_capacity 32 16) [] (Ok judged) -> count_result m samples (Err e) ->
      prune_vocab_result s1 s2 c m samples (Err e)
  | prune_vocab_count_panic judged :
      judge_result m (m_vocab m) lattice_new (pool_with_capacity 32 16) [] (Ok judged) -> count_result m samples Panic ->
      prune_vocab_result s1 s2 c m samples Panic.

  (** ** The loop *)
  (** src/prune.rs:25-50: [n] turns of EM; [fuel] is for [digamma]. *)
  Inductive em_result (fuel : nat) (c : prune_cfg) (samples : list bytes) : nat -> model -> res model -> Prop :=
  | em_done m : em_result fuel c samples 0 m (Ok m)
  | em_turn n m freqs vocab r :
      e_step_result c m samples (Ok freqs) -> m_step fuel m freqs = Ok vocab -> em_result fuel c samples n (model_from vocab) r ->
      em_result fuel c samples (S n) m r
  | em_e_panic n m : e_step_result c m samples Panic -> em_result fuel c samples (S n) m Panic
  | em_m_fails n m freqs r :
      e_step_result c m samples (Ok freqs) -> (r = Panic /\ m_step fuel m freqs = Panic) \/ (r = Diverge /\ m_step fuel m freqs = Diverge) ->
      em_result fuel c samples (S n) m r.

  (** src/prune.rs:23-57 [prune]: the possible results; a run that goes on for ever has none. *)
  Inductive prune_result (s1 s2 : sorter) (fuel : nat) (c : prune_cfg) (samples : list bytes) : model -> res model -> Prop :=
  | prune_done m : vocab_size m <= pc_vocab_size c -> prune_result s1 s2 fuel c samples m (Ok m)
  | prune_turn m m1 vocab r : pc_vocab_size c < vocab_size m -> em_result fuel c samples (pc_em_subiters c) m (Ok m1) ->
      prune_vocab_result s1 s2 c m1 samples (Ok vocab) -> prune_result s1 s2 fuel c samples (model_from vocab) r ->
      prune_result s1 s2 fuel c samples m r
  | prune_em_fails m r : pc_vocab_size c < vocab_size m -> em_result fuel c samples (pc_em_subiters c) m r -> r = Panic \/ r = Diverge ->
      prune_result s1 s2 fuel c samples m r
  | prune_vocab_panics m m1 : pc_vocab_size c < vocab_size m -> em_result fuel c samples (pc_em_subiters c) m (Ok m1) ->
      prune_vocab_result s1 s2 c m1 samples Panic -> prune_result s1 s2 fuel c samples m Panic
  | prune_vocab_errs m m1 e : pc_vocab_size c < vocab_size m -> em_result fuel c samples (pc_em_subiters c) m (Ok m1) ->
      prune_vocab_result s1 s2 c m1 samples (Err e) -> prune_result s1 s2 fuel c samples m (Err e).
End Prune.
