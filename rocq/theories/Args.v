(** src/cli.rs:21-177 and 654-744: the command line and [main].

    The parser is generated by the [xflags!] macro of the crate xflags (Cargo.toml: "0.3.2"), which is not in /repo.  It is
    modelled after the generated code: one pass over the arguments; an argument that begins with [-] is a flag, and a flag
    takes the next argument, whatever it looks like, as its value.  A bare [--] is treated as an unknown flag. *)
From Coq.Strings Require Import String.
From Verif Require Import Base F64 Utf8 SpecJson Json Serde Processor Sort Patterns Cli.
Set Implicit Arguments.
Local Open Scope string_scope.
Local Open Scope list_scope.

Inductive cmd := CGenerate | CPrune | CFilter | CMerge | CRegex | CMine | CEncode | CDecode.
Inductive ty := TString | TUsize | TF64 | TBool.
Inductive val := VString (s : bytes) | VUsize (n : nat) | VF64 (x : f64) | VBool (b : bool).

(** src/cli.rs:21-177: the flags of a command: short name, long name, type. *)
Definition flag (short long : string) (t : ty) : list bytes * bytes * ty :=
  (match short with EmptyString => [B long] | _ => [B long; B short] end, B long, t).
Definition flags_of (c : cmd) : list (list bytes * bytes * ty) :=
  match c with
  | CGenerate => (* src/cli.rs:26-61 *)
      [flag "-v" "--vocab-size" TUsize; flag "-o" "--output" TString; flag "" "--processor" TString; flag "" "--train" TString;
       flag "" "--special" TString; flag "" "--suggested" TString; flag "" "--added" TString; flag "" "--allow" TString;
       flag "" "--split" TString; flag "" "--insert-probability" TF64; flag "" "--max-token-length" TUsize]
  | CPrune => (* src/cli.rs:65-86 *)
      [flag "-i" "--input" TString; flag "-o" "--output" TString; flag "-v" "--vocab-size" TUsize; flag "" "--train" TString;
       flag "" "--dropout" TF64; flag "" "--shrink-factor" TF64; flag "" "--em-subiters" TUsize]
  | CFilter => (* src/cli.rs:90-103 *)
      [flag "-i" "--input" TString; flag "-o" "--output" TString; flag "-v" "--vocab-size" TUsize; flag "" "--min-score" TF64;
       flag "" "--force" TBool]
  | CMerge => (* src/cli.rs:106-131 *)
      [flag "-i" "--input" TString; flag "-o" "--output" TString; flag "" "--train" TString; flag "" "--allow" TString;
       flag "" "--num-merges" TUsize; flag "" "--step" TUsize; flag "" "--scale-factor" TF64; flag "" "--max-token-length" TUsize]
  | CRegex => (* src/cli.rs:134-140 *)
      [flag "-o" "--output" TString; flag "-p" "--pattern" TString]
  | CMine => (* src/cli.rs:143-159 *)
      [flag "-n" "--num-idioms" TUsize; flag "-o" "--output" TString; flag "" "--train" TString; flag "-p" "--pattern" TString]
  | CEncode | CDecode => (* src/cli.rs:162-175 *)
      [flag "-v" "--vocab" TString; flag "-i" "--input" TString]
  end.
Definition cmd_named (s : bytes) : option cmd :=
  if beqs s "generate" then Some CGenerate
  else if beqs s "prune" then Some CPrune
  else if beqs s "filter" then Some CFilter
  else if beqs s "merge" then Some CMerge
  else if beqs s "regex" then Some CRegex
  else if beqs s "mine" then Some CMine
  else if beqs s "encode" then Some CEncode
  else if beqs s "decode" then Some CDecode
  else None.

(** The structs that [xflags!] makes of them, and the enum of the commands. *)
Record generate_flags := GenerateFlags {
  gf_vocab_size : nat; gf_output : bytes; gf_processor : list bytes; gf_train : list bytes; gf_special : list bytes; gf_suggested : list bytes;
  gf_added : list bytes; gf_allow : option bytes; gf_split : option bytes; gf_insert_probability : option f64; gf_max_token_length : option nat }.
Record prune_flags := PruneFlags {
  pf_input : bytes; pf_output : bytes; pf_vocab_size : nat; pf_train : list bytes; pf_dropout : option f64; pf_shrink_factor : option f64;
  pf_em_subiters : option nat }.
Record filter_flags := FilterFlags { ff_input : bytes; ff_output : bytes; ff_vocab_size : option nat; ff_min_score : option f64; ff_force : option bool }.
Record merge_flags := MergeFlags {
  mf_input : bytes; mf_output : bytes; mf_train : list bytes; mf_allow : bytes; mf_num_merges : option nat; mf_step : option nat;
  mf_scale_factor : option f64; mf_max_token_length : option nat }.
Record regex_flags := RegexFlags { rf_output : option bytes; rf_pattern : list bytes }.
Record mine_flags := MineFlags { nf_num_idioms : nat; nf_output : bytes; nf_train : list bytes; nf_pattern : list bytes }.
Record code_flags := CodeFlags { cf_vocab : bytes; cf_input : option bytes }.
Inductive command :=
| Generate (f : generate_flags) | Prune (f : prune_flags) | Filter (f : filter_flags) | Merge (f : merge_flags)
| Regex (f : regex_flags) | Mine (f : mine_flags) | Encode (f : code_flags) | Decode (f : code_flags).

(** What parsing the arguments comes to: a message with the usage and exit 0, a message with the error and exit 2, or a command. *)
Inductive parsed := PHelp | PUsage | PCommand (c : command).

(** [usize::from_str]: digits after an optional plus sign, of a value below 2^64. *)
Definition is_digit (b : byte) : bool := ((48 <=? bN b) && (bN b <=? 57))%N.
Fixpoint parse_digits (acc : N) (s : bytes) : option N :=
  match s with
  | [] => Some acc
  | b :: s' => if is_digit b then
                 let n := (10 * acc + (bN b - 48))%N in
                 if (n <? 2 ^ 64)%N then parse_digits n s' else None
               else None
  end.
Definition parse_usize (s : bytes) : option nat :=
  let digits := match s with b :: s' => if Byte.eqb b x2b then s' else s | [] => s end in
  match digits with [] => None | _ => option_map N.to_nat (parse_digits 0 digits) end.
(** [bool::from_str]. *)
Definition parse_bool (s : bytes) : option bool :=
  if beqs s "true" then Some true else if beqs s "false" then Some false else None.

(** xflags::rt::Parser::{required, optional}: more than one value is an error. *)
Definition required {A} (vals : list A) : option A := match vals with [a] => Some a | _ => None end.
Definition optional {A} (vals : list A) : option (option A) :=
  match vals with [] => Some None | [a] => Some (Some a) | _ => None end.
Definition obind {A C} (x : option A) (k : A -> option C) : option C := match x with Some a => k a | None => None end.
Local Notation "x <-? e ; k" := (obind e (fun x => k)) (at level 61, e at next level, right associativity).

(** The vectors in which the values of a flag are collected. *)
Definition vals (long : string) (given : list (bytes * val)) : list val :=
  map snd (filter (fun g => bytes_eqb (fst g) (B long)) given).
Definition strings (l : list val) : list bytes := flat_map (fun v => match v with VString s => [s] | _ => [] end) l.
Definition usizes (l : list val) : list nat := flat_map (fun v => match v with VUsize n => [n] | _ => [] end) l.
Definition f64s (l : list val) : list f64 := flat_map (fun v => match v with VF64 x => [x] | _ => [] end) l.
Definition bools (l : list val) : list bool := flat_map (fun v => match v with VBool b => [b] | _ => [] end) l.

(** The end of the generated parser: the struct of the command ([required], [optional], [repeated] in src/cli.rs:21-177). *)
Definition finish (c : cmd) (given : list (bytes * val)) : option command :=
  let s (long : string) := strings (vals long given) in
  let u (long : string) := usizes (vals long given) in
  let f (long : string) := f64s (vals long given) in
  match c with
  | CGenerate =>
      vocab_size <-? required (u "--vocab-size") ; output <-? required (s "--output") ;
      allow <-? optional (s "--allow") ; split <-? optional (s "--split") ;
      insert_probability <-? optional (f "--insert-probability") ; max_token_length <-? optional (u "--max-token-length") ;
      Some (Generate (GenerateFlags vocab_size output (s "--processor") (s "--train") (s "--special") (s "--suggested") (s "--added")
                                    allow split insert_probability max_token_length))
  | CPrune =>
      input <-? required (s "--input") ; output <-? required (s "--output") ; vocab_size <-? required (u "--vocab-size") ;
      dropout <-? optional (f "--dropout") ; shrink_factor <-? optional (f "--shrink-factor") ; em_subiters <-? optional (u "--em-subiters") ;
      Some (Prune (PruneFlags input output vocab_size (s "--train") dropout shrink_factor em_subiters))
  | CFilter =>
      input <-? required (s "--input") ; output <-? required (s "--output") ; vocab_size <-? optional (u "--vocab-size") ;
      min_score <-? optional (f "--min-score") ; force <-? optional (bools (vals "--force" given)) ;
      Some (Filter (FilterFlags input output vocab_size min_score force))
  | CMerge =>
      input <-? required (s "--input") ; output <-? required (s "--output") ; allow <-? required (s "--allow") ;
      num_merges <-? optional (u "--num-merges") ; step <-? optional (u "--step") ; scale_factor <-? optional (f "--scale-factor") ;
      max_token_length <-? optional (u "--max-token-length") ;
      Some (Merge (MergeFlags input output (s "--train") allow num_merges step scale_factor max_token_length))
  | CRegex =>
      output <-? optional (s "--output") ; Some (Regex (RegexFlags output (s "--pattern")))
  | CMine =>
      num_idioms <-? required (u "--num-idioms") ; output <-? required (s "--output") ;
      Some (Mine (MineFlags num_idioms output (s "--train") (s "--pattern")))
  | CEncode => vocab <-? required (s "--vocab") ; input <-? optional (s "--input") ; Some (Encode (CodeFlags vocab input))
  | CDecode => vocab <-? required (s "--vocab") ; input <-? optional (s "--input") ; Some (Decode (CodeFlags vocab input))
  end.

Section Args.
  (** [f64::from_str]. *)
  Variable parse_f64 : bytes -> option f64.

  (** xflags::rt::Parser::next_value_from_str. *)
  Definition value_from_str (t : ty) (s : bytes) : option val :=
    if utf8_ok s then
      match t with
      | TString => Some (VString s)
      | TUsize => option_map VUsize (parse_usize s)
      | TF64 => option_map VF64 (parse_f64 s)
      | TBool => option_map VBool (parse_bool s)
      end
    else None.

  (** xflags::rt::Parser::pop_flag: what counts as a flag. *)
  Definition is_flag (arg : bytes) : bool := match arg with b :: _ => Byte.eqb b x2d && utf8_ok arg | [] => false end.
  Definition is_help (arg : bytes) : bool := beqs arg "--help" || beqs arg "-h".

  (** The loop of the generated parser, after the name of the command. *)
  Fixpoint parse_flags (c : cmd) (given : list (bytes * val)) (args : list bytes) : parsed :=
    match args with
    | [] => match finish c given with Some x => PCommand x | None => PUsage end
    | arg :: args' =>
        if is_flag arg then
          if is_help arg then PHelp
          else match find (fun '(names, _, _) => existsb (bytes_eqb arg) names) (flags_of c) with
               | Some (_, long, t) =>
                   match args' with
                   | [] => PUsage
                   | v :: args'' =>
                       match value_from_str t v with
                       | Some x => parse_flags c (given ++ [(long, x)]) args''
                       | None => PUsage
                       end
                   end
               | None => PUsage
               end
        else PUsage
    end.
  (** Before it. *)
  Definition parse_args (args : list bytes) : parsed :=
    match args with
    | [] => PUsage
    | arg :: args' =>
        if is_flag arg then if is_help arg then PHelp else PUsage
        else match cmd_named arg with Some c => parse_flags c [] args' | None => PUsage end
    end.

  (** What the program does. *)
  Inductive outcome :=
  | Help
  | Usage
  | Prints (text : bytes)
  (** It runs to an end: what it has written where, or a panic. *)
  | Runs (r : res (bytes * bytes)).

  Variable fs : bytes -> option bytes.
  Variable writable : bytes -> bool.
  Variable normalize : unicode_form -> bytes -> bytes.
  Variable fmt_num : f64 -> bytes.
  Variable num_val : bytes -> option f64.
  Variable regex_new : bytes -> option ((bytes -> bool) * (bytes -> list bytes)).
  Variable fancy_new : bytes -> option (bytes -> list (option bytes)).
  Variables (exp ln : f64 -> f64).
  Variable threads : nat.
  Variables (s1 s2 : sorter) (fuel : nat).

  Definition unwrap_or {A} (x : option A) (d : A) : A := match x with Some a => a | None => d end.
  (** A literal n/d: the nearest number. *)
  Definition literal (n d : Z) : f64 := fdiv (f64_of_Z n) (f64_of_Z d).

  (** src/cli.rs:529-533: [println!("{}: {}", name, pattern())] for each. *)
  Definition pattern_list : bytes := List.concat (map (fun p => fst p ++ B ": " ++ snd p ++ [x0a]) patterns).

  (** src/cli.rs:657-744: the commands with their defaults; possible outcomes. *)
  Definition run (c : command) : outcome -> Prop :=
    match c with
    | Generate f => fun o => exists r, o = Runs r /\
        generate_cmd fs writable parse_f64 normalize fmt_num num_val regex_new fancy_new ln threads s1 s2 (gf_output f) (gf_vocab_size f) (gf_train f)
          (gf_processor f) (gf_special f) (gf_suggested f) (gf_added f) (gf_split f) (gf_allow f) (unwrap_or (gf_insert_probability f) (literal 1 10))
          (unwrap_or (gf_max_token_length f) 24) r
    | Prune f => fun o => exists r, o = Runs r /\
        prune_cmd fs writable parse_f64 normalize fmt_num num_val exp ln threads s1 s2 fuel (pf_input f) (pf_output f) (pf_vocab_size f) (pf_train f)
          (unwrap_or (pf_dropout f) (literal 1 100)) (unwrap_or (pf_shrink_factor f) (literal 8 10)) (unwrap_or (pf_em_subiters f) 1) r
    | Filter f => fun o => o = Runs
        (filter_cmd fs writable fmt_num num_val s1 s2 (ff_input f) (ff_output f) (unwrap_or (ff_vocab_size f) 0) (ff_min_score f) (unwrap_or (ff_force f) false))
    | Regex f => fun o => o =
        match rf_output f with
        | None => Prints pattern_list
        | Some output => Runs (regex_cmd writable regex_new output (rf_pattern f))
        end
    | Merge f => fun o => exists r, o = Runs r /\
        merge_cmd fs writable parse_f64 normalize fmt_num num_val regex_new threads s1 (mf_input f) (mf_output f) (mf_train f) (mf_allow f)
          (unwrap_or (mf_num_merges f) 1000) (unwrap_or (mf_step f) 50) (unwrap_or (mf_scale_factor f) (literal 9 10)) (unwrap_or (mf_max_token_length f) 24) r
    | Mine f => fun o => exists r, o = Runs r /\
        mine_cmd fs writable parse_f64 normalize fmt_num regex_new threads s1 (nf_num_idioms f) (nf_output f) (nf_train f) (nf_pattern f) r
    | Encode _ | Decode _ => fun o => o = Runs Panic
    end.
  (** src/cli.rs:654-744 [main]. *)
  Definition main (args : list bytes) : outcome -> Prop :=
    match parse_args args with
    | PHelp => eq Help
    | PUsage => eq Usage
    | PCommand c => run c
    end.
End Args.
