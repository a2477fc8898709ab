(** src/cli.rs. *)
From Coq Require Import Permutation.
From Coq.Strings Require Import String.
From Verif Require Import Base F64 Utf8 Trie Model Processor Tokenizer SpecJson Json Serde Sort Par Filter Merge Generate Mine Lattice Prune Patterns.
Set Implicit Arguments.
Local Open Scope list_scope.

(** [Result::unwrap], and [unwrap_or_else(panic)]. *)
Definition unwrap {A} (x : res A) : res A := match x with Err _ => Panic | _ => x end.
Definition some {A} (x : option A) : res A := match x with Some a => Ok a | None => Panic end.
(** [iter().map(f).collect()] where [f] may panic.  (rayon's [par_iter] gives the same: the results by index, or a panic.) *)
Fixpoint map_res {A C} (f : A -> res C) (l : list A) : res (list C) :=
  match l with
  | [] => Ok []
  | a :: l' => x <- f a ;; xs <- map_res f l' ;; Ok (x :: xs)
  end.

(** Sequencing where each part has a set of possible results. *)
Inductive andthen {A C} (x : res A -> Prop) (k : A -> res C -> Prop) : res C -> Prop :=
| then_ok a r : x (Ok a) -> k a r -> andthen x k r
| then_err e : x (Err e) -> andthen x k (Err e)
| then_panic : x Panic -> andthen x k Panic
| then_diverge : x Diverge -> andthen x k Diverge.
(** [unwrap] of one of the possible results. *)
Inductive unwraps {A} (x : res A -> Prop) : res A -> Prop :=
| unwraps_it r : x r -> unwraps x (unwrap r).

(** [s.split(sep)] for one byte. *)
Fixpoint split_on (sep : byte) (s : bytes) : list bytes :=
  match s with
  | [] => [[]]
  | b :: s' =>
      if Byte.eqb b sep then [] :: split_on sep s'
      else match split_on sep s' with
           | piece :: pieces => (b :: piece) :: pieces
           | [] => [[b]]
           end
  end.

(** [char::is_whitespace] ([White_Space] of Unicode), as bytes. *)
Definition whitespace_chars : list bytes :=
  map (fun b => [b]) [x09; x0a; x0b; x0c; x0d; x20] ++ [[xc2; x85]; [xc2; xa0]; [xe1; x9a; x80]]
  ++ map (fun b => [xe2; x80; b]) [x80; x81; x82; x83; x84; x85; x86; x87; x88; x89; x8a; xa8; xa9; xaf]
  ++ [[xe2; x81; x9f]; [xe3; x80; x80]].
Fixpoint find_prefix (ws : list bytes) (s : bytes) : option nat :=
  match ws with
  | [] => None
  | w :: ws' => if starts_with s w then Some (List.length w) else find_prefix ws' s
  end.
(** Removes the strings [ws] from the beginning. *)
Fixpoint strip_fuel (fuel : nat) (ws : list bytes) (s : bytes) : bytes :=
  match fuel with
  | 0 => s
  | S fuel' => match find_prefix ws s with Some n => strip_fuel fuel' ws (skipn n s) | None => s end
  end.
Definition strip (ws : list bytes) (s : bytes) : bytes := strip_fuel (List.length s) ws s.
(** [str::trim]. *)
Definition trim (s : bytes) : bytes :=
  rev (strip (map (@rev byte) whitespace_chars) (rev (strip whitespace_chars s))).

Definition is_empty (s : bytes) : bool := match s with [] => true | _ => false end.

Section Cli.
  (** What the paths lead to; [None]: can not be read. *)
  Variable fs : bytes -> option bytes.
  (** Whether [std::fs::write] to the path succeeds. *)
  Variable writable : bytes -> bool.
  (** [str::parse::<f64>]; [None]: an error. *)
  Variable parse_f64 : bytes -> option f64.
  Variable normalize : unicode_form -> bytes -> bytes.
  Variable fmt_num : f64 -> bytes.
  Variable num_val : bytes -> option f64.
  (** [Regex::new] and what its [is_match] and [find_iter] do; [FancyRegex::new] and its [find_iter]. *)
  Variable regex_new : bytes -> option ((bytes -> bool) * (bytes -> list bytes)).
  Variable fancy_new : bytes -> option (bytes -> list (option bytes)).
  Variables (exp ln : f64 -> f64).
  Variable threads : nat.

  (** src/cli.rs:217-235 [load_processors]. *)
  Definition processor_named (name : bytes) : res processor :=
    if beqs name "crlf" then Ok Crlf
    else if beqs name "nfc" then Ok (Unicode Nfc)
    else if beqs name "nfd" then Ok (Unicode Nfd)
    else if beqs name "nfkc" then Ok (Unicode Nfkc)
    else if beqs name "nfkd" then Ok (Unicode Nfkd)
    else Panic.
  Definition load_processors (names : list bytes) : res (list processor) := map_res processor_named names.

  (** src/cli.rs:204-215 [struct Source]; the four counts are not used. *)
  Record source := Source { so_name : bytes; so_samples : list bytes }.

  (** src/cli.rs:263-271. *)
  Definition file_samples (contents : bytes) : res (list bytes) :=
    pieces <- map_res (fun s => if utf8_ok s then Ok s else Panic) (split_on x00 contents) ;;
    Ok (filter (fun s => negb (is_empty s)) pieces).
  (** src/cli.rs:240-312: one source. *)
  Definition load_source (ps : list processor) (src : bytes) : res source :=
    match split_on x3a src with
    | name :: filepath :: more =>
        proportion <- match more with
                      | [] => Ok f1
                      | [s] => some (parse_f64 s)
                      | _ => Panic
                      end ;;
        contents <- some (fs filepath) ;;
        samples <- file_samples contents ;;
        let processed := map (fun s => fold_left (fun sample p => preprocess normalize p sample) ps s)
                             (firstn (f64_as_usize (fmul (f64_of_nat (List.length samples)) proportion)) samples) in
        Ok (Source name (filter (fun s => negb (is_empty s)) processed))
    | _ => Panic
    end.
  (** src/cli.rs:237-314 [load_sources]. *)
  Definition load_sources (srcs : list bytes) (ps : list processor) : res (list source) := map_res (load_source ps) srcs.

  (** [std::fs::read_to_string(path).unwrap()]. *)
  Definition read_text (path : bytes) : res bytes :=
    contents <- some (fs path) ;; if utf8_ok contents then Ok contents else Panic.
  (** src/cli.rs:318-322, 328-332: the text of the regex in a file. *)
  Definition regex_file (path : bytes) : res bytes :=
    text <- read_text path ;;
    Ok (trim (filter (fun b => negb (Byte.eqb b x0a || Byte.eqb b x0d)) text)).
  (** src/cli.rs:316-324 [load_regex]. *)
  Definition load_regex (path : bytes) : res ((bytes -> bool) * (bytes -> list bytes)) := text <- regex_file path ;; some (regex_new text).
  (** src/cli.rs:326-334 [load_fancy_regex]. *)
  Definition load_fancy_regex (path : bytes) : res (bytes -> list (option bytes)) := text <- regex_file path ;; some (fancy_new text).
  Definition load_opt {A} (load : bytes -> res A) (path : option bytes) : res (option A) :=
    match path with
    | None => Ok None
    | Some path => x <- load path ;; Ok (Some x)
    end.

  (** src/cli.rs:336-351 [load_patterns]: the texts. *)
  Definition load_pattern (name : bytes) : res bytes :=
    let text := match hm_get bytes_eqb name patterns with Some text => text | None => name end in
    match regex_new text with Some _ => Ok text | None => Panic end.
  Definition load_patterns (names : list bytes) : res (list bytes) := map_res load_pattern names.

  (** src/cli.rs:353-368 [load_tokens]. *)
  Definition load_token_file (path : bytes) : res (list bytes) :=
    text <- read_text path ;;
    match parse_document num_val text with
    | Some v => some (de_vec de_string v)
    | None => Panic
    end.
  Definition load_tokens (paths : list bytes) : res (list bytes) := lists <- map_res load_token_file paths ;; Ok (List.concat lists).

  (** src/cli.rs:370-379 [shuffled_train_samples]: a possible result. *)
  Definition shuffled (train : list source) (samples : list bytes) : Prop := Permutation (List.concat (map so_samples train)) samples.

  (** [std::fs::write(path, contents).unwrap()]: what is written where. *)
  Definition write_file (path contents : bytes) : res (bytes * bytes) := if writable path then Ok (path, contents) else Panic.
  (** [tokenizer.save(output).unwrap()]. *)
  Definition save (t : tokenizer) (output : bytes) : res (bytes * bytes) := write_file output (save_contents fmt_num t).
  (** [Tokenizer::from_file(input).unwrap().into_inner()]. *)
  Definition open_tokenizer (input : bytes) : res (model * list processor * list bytes) :=
    t <- unwrap (from_file num_val (fs input)) ;; Ok (into_inner t).

  (** src/cli.rs:428-436: the sources are fed one after the other. *)
  Inductive feeds : generator -> list source -> res generator -> Prop :=
  | feeds_done g : feeds g [] (Ok g)
  | feeds_more g s ss g' r : feed_result g threads (so_samples s) (Ok g') -> feeds g' ss r -> feeds g (s :: ss) r
  | feeds_panics g s ss : feed_result g threads (so_samples s) Panic -> feeds g (s :: ss) Panic.

  (** The commands: their possible results, what they write.  [s1], [s2] are the sort functions. *)
  (** src/cli.rs:409-417. *)
  Definition generate_inputs (train processors : list bytes) (suggested added : list bytes) (split allow : option bytes)
      : res (list processor * list source * option ((bytes -> bool) * (bytes -> list bytes)) * option (bytes -> list (option bytes)) * list bytes * list bytes) :=
    ps <- load_processors processors ;;
    train <- load_sources train ps ;;
    allow <- load_opt load_regex allow ;;
    split <- load_opt load_fancy_regex split ;;
    added <- load_tokens added ;;
    suggested <- load_tokens suggested ;;
    Ok (ps, train, allow, split, added, suggested).
  (** src/cli.rs:386-452 [generate_cmd]. *)
  Definition generate_cmd (s1 s2 : sorter) (output : bytes) (vocab_size : nat) (train processors specials suggested added : list bytes)
      (split allow : option bytes) (insert_probability : f64) (max_token_length : nat) : res (bytes * bytes) -> Prop :=
    andthen (eq (generate_inputs train processors suggested added split allow)) (fun x =>
    let '(ps, train, allow, split, added, suggested) := x in
    andthen (feeds (gen_new max_token_length insert_probability split (option_map fst allow) added suggested) train) (fun g =>
    andthen (generate_result ln s1 s2 g vocab_size) (fun vocab =>
    eq (save (tok_new (model_from vocab) ps specials) output)))).

  (** src/cli.rs:455-494 [prune_cmd]. *)
  Definition prune_cmd (s1 s2 : sorter) (fuel : nat) (input output : bytes) (vocab_size : nat) (train : list bytes) (dropout shrink_factor : f64)
      (em_subiters : nat) : res (bytes * bytes) -> Prop :=
    andthen (eq ('(m, ps, specials) <- open_tokenizer input ;; train <- load_sources train ps ;; Ok (m, ps, specials, train))) (fun x =>
    let '(m, ps, specials, train) := x in
    andthen (fun r => exists samples, shuffled train samples /\
               unwraps (prune_result exp ln threads s1 s2 fuel (PruneCfg vocab_size shrink_factor em_subiters dropout) samples m) r) (fun m' =>
    eq (save (tok_new m' ps specials) output))).

  (** src/cli.rs:497-524 [filter_cmd]. *)
  Definition filter_cmd (s1 s2 : sorter) (input output : bytes) (vocab_size : nat) (min_score : option f64) (force : bool) : res (bytes * bytes) :=
    '(m, ps, specials) <- open_tokenizer input ;;
    m' <- filter_model s1 s2 (FilterCfg vocab_size min_score force) m ;;
    save (tok_new m' ps specials) output.

  (** src/cli.rs:527-551 [regex_cmd] with an output. *)
  Definition regex_cmd (output : bytes) (names : list bytes) : res (bytes * bytes) :=
    texts <- load_patterns names ;;
    _ <- some (regex_new (allow_text texts)) ;;
    write_file output (allow_text texts).

  (** src/cli.rs:554-606 [merge_cmd]. *)
  Definition merge_cmd (s : sorter) (input output : bytes) (train : list bytes) (allow : bytes) (num_merges step : nat) (scale_factor : f64)
      (max_token_length : nat) : res (bytes * bytes) -> Prop :=
    andthen (eq (match train with
                 | [] => Panic
                 | _ => '(m, ps, specials) <- open_tokenizer input ;; train <- load_sources train ps ;; allow <- load_regex allow ;;
                        Ok (m, ps, specials, train, allow)
                 end)) (fun x =>
    let '(m, ps, specials, train, allow) := x in
    andthen (fun r => exists samples, shuffled train samples /\
               merge_result s threads (MergeCfg (fst allow) num_merges step scale_factor max_token_length) m samples r) (fun m' =>
    eq (save (tok_new m' ps specials) output))).

  (** src/cli.rs:609-652 [mine_cmd]. *)
  Definition mine_cmd (s : sorter) (num_idioms : nat) (output : bytes) (train names : list bytes) : res (bytes * bytes) -> Prop :=
    andthen (eq (match train, names with
                 | [], _ | _, [] => Panic
                 | _, _ => train <- load_sources train [] ;; texts <- load_patterns names ;; re <- some (regex_new (mine_text texts)) ;; Ok (train, re)
                 end)) (fun x =>
    let '(train, re) := x in
    andthen (fun r => exists samples idioms, shuffled train samples /\ mine_result (snd re) s threads num_idioms samples idioms /\ r = Ok idioms) (fun idioms =>
    eq (write_file output (write fmt_num true 0 (JArr (map (fun i => jstr (fst i)) idioms)))))).
End Cli.
