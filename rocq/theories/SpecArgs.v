(** The command line as the manual (README.md and the comments in src/cli.rs:21-177) describes it. *)
From Coq Require Import Reals.
From Flocq Require Import Core BinarySingleNaN.
From Coq.Strings Require Import String.
From Verif Require Import Base F64 F64Proofs SpecUtf8 Utf8 SpecJson Args.
Set Implicit Arguments.
Local Open Scope string_scope.
Local Open Scope list_scope.

(** An option: its names, and what its value is. *)
Definition opt := (list string * ty)%type.
Definition manual : list (string * list opt) :=
  [("generate", [(["-v"; "--vocab-size"], TUsize); (["-o"; "--output"], TString); (["--processor"], TString); (["--train"], TString);
                 (["--special"], TString); (["--suggested"], TString); (["--added"], TString); (["--allow"], TString); (["--split"], TString);
                 (["--insert-probability"], TF64); (["--max-token-length"], TUsize)]);
   ("prune", [(["-i"; "--input"], TString); (["-o"; "--output"], TString); (["-v"; "--vocab-size"], TUsize); (["--train"], TString);
              (["--dropout"], TF64); (["--shrink-factor"], TF64); (["--em-subiters"], TUsize)]);
   ("filter", [(["-i"; "--input"], TString); (["-o"; "--output"], TString); (["-v"; "--vocab-size"], TUsize); (["--min-score"], TF64);
               (["--force"], TBool)]);
   ("merge", [(["-i"; "--input"], TString); (["-o"; "--output"], TString); (["--train"], TString); (["--allow"], TString);
              (["--num-merges"], TUsize); (["--step"], TUsize); (["--scale-factor"], TF64); (["--max-token-length"], TUsize)]);
   ("regex", [(["-o"; "--output"], TString); (["-p"; "--pattern"], TString)]);
   ("mine", [(["-n"; "--num-idioms"], TUsize); (["-o"; "--output"], TString); (["--train"], TString); (["-p"; "--pattern"], TString)]);
   ("encode", [(["-v"; "--vocab"], TString); (["-i"; "--input"], TString)]);
   ("decode", [(["-v"; "--vocab"], TString); (["-i"; "--input"], TString)])].

(** How values are written. *)
Definition Natural (s : bytes) (n : N) : Prop :=
  exists digits, (s = digits \/ s = x2b :: digits) /\ Digits digits /\ fold_left (fun acc b => (10 * acc + (bN b - 48))%N) digits 0%N = n.
Inductive Means (parse_f64 : bytes -> option f64) : ty -> bytes -> val -> Prop :=
| means_text s : Utf8 s -> Means parse_f64 TString s (VString s)
| means_size s n : Natural s n -> (n < 2 ^ 64)%N -> Means parse_f64 TUsize s (VUsize (N.to_nat n))
| means_number s x : Utf8 s -> parse_f64 s = Some x -> Means parse_f64 TF64 s (VF64 x)
| means_true : Means parse_f64 TBool (B "true") (VBool true)
| means_false : Means parse_f64 TBool (B "false") (VBool false).

(** A command line after the name of the command: options with their values, one after the other. *)
Definition line (ps : list (bytes * bytes)) : list bytes := flat_map (fun p => [fst p; snd p]) ps.
(** The values given for an option, in their order. *)
Definition given (names : list string) (ps : list (bytes * bytes)) : list bytes :=
  map snd (filter (fun p => existsb (bytes_eqb (fst p)) (map B names)) ps).

(** The options of a command with the values they were given.  (An option that must be given once has one, one that may be
    left out has none or one.) *)
Definition one {A} (v : A -> val) (a : A) : list val := [v a].
Definition perhaps {A} (v : A -> val) (a : option A) : list val := match a with Some a => [v a] | None => [] end.
Definition name_of (c : command) : string :=
  match c with
  | Generate _ => "generate" | Prune _ => "prune" | Filter _ => "filter" | Merge _ => "merge" | Regex _ => "regex" | Mine _ => "mine"
  | Encode _ => "encode" | Decode _ => "decode"
  end.
Definition settings (c : command) : list (string * list val) :=
  match c with
  | Generate f =>
      [("--vocab-size", one VUsize (gf_vocab_size f)); ("--output", one VString (gf_output f)); ("--processor", map VString (gf_processor f));
       ("--train", map VString (gf_train f)); ("--special", map VString (gf_special f)); ("--suggested", map VString (gf_suggested f));
       ("--added", map VString (gf_added f)); ("--allow", perhaps VString (gf_allow f)); ("--split", perhaps VString (gf_split f));
       ("--insert-probability", perhaps VF64 (gf_insert_probability f)); ("--max-token-length", perhaps VUsize (gf_max_token_length f))]
  | Prune f =>
      [("--input", one VString (pf_input f)); ("--output", one VString (pf_output f)); ("--vocab-size", one VUsize (pf_vocab_size f));
       ("--train", map VString (pf_train f)); ("--dropout", perhaps VF64 (pf_dropout f)); ("--shrink-factor", perhaps VF64 (pf_shrink_factor f));
       ("--em-subiters", perhaps VUsize (pf_em_subiters f))]
  | Filter f =>
      [("--input", one VString (ff_input f)); ("--output", one VString (ff_output f)); ("--vocab-size", perhaps VUsize (ff_vocab_size f));
       ("--min-score", perhaps VF64 (ff_min_score f)); ("--force", perhaps VBool (ff_force f))]
  | Merge f =>
      [("--input", one VString (mf_input f)); ("--output", one VString (mf_output f)); ("--train", map VString (mf_train f));
       ("--allow", one VString (mf_allow f)); ("--num-merges", perhaps VUsize (mf_num_merges f)); ("--step", perhaps VUsize (mf_step f));
       ("--scale-factor", perhaps VF64 (mf_scale_factor f)); ("--max-token-length", perhaps VUsize (mf_max_token_length f))]
  | Regex f => [("--output", perhaps VString (rf_output f)); ("--pattern", map VString (rf_pattern f))]
  | Mine f =>
      [("--num-idioms", one VUsize (nf_num_idioms f)); ("--output", one VString (nf_output f)); ("--train", map VString (nf_train f));
       ("--pattern", map VString (nf_pattern f))]
  | Encode f | Decode f => [("--vocab", one VString (cf_vocab f)); ("--input", perhaps VString (cf_input f))]
  end.

(** Values for options of the command [name]; the options exist and the values can be read. *)
Definition Known (parse_f64 : bytes -> option f64) (name : string) (p : bytes * bytes) : Prop :=
  exists os names t v, In (name, os) manual /\ In (names, t) os /\ In (fst p) (map B names) /\ Means parse_f64 t (snd p) v.
(** The command line [name] [ps] is a call of the command [c]. *)
Definition Calls (parse_f64 : bytes -> option f64) (ps : list (bytes * bytes)) (c : command) : Prop :=
  exists os, In (name_of c, os) manual /\ Forall (Known parse_f64 (name_of c)) ps /\
    Forall2 (fun (o : opt) (s : string * list val) => In (fst s) (fst o) /\ Forall2 (Means parse_f64 (snd o)) (given (fst o) ps) (snd s)) os (settings c).

(** What is assumed when an option is left out. *)
Definition defaults : list (string * string * string) :=
  [("generate", "--insert-probability", "0.1"); ("generate", "--max-token-length", "24");
   ("prune", "--dropout", "0.01"); ("prune", "--shrink-factor", "0.8"); ("prune", "--em-subiters", "1");
   ("filter", "--vocab-size", "0"); ("filter", "--force", "false");
   ("merge", "--num-merges", "1000"); ("merge", "--step", "50"); ("merge", "--scale-factor", "0.9"); ("merge", "--max-token-length", "24")].
(** [x] is the number nearest to [q]. *)
Definition Nearest (q : R) (x : f64) : Prop := is_finite x = true /\ B2R x = rnd64 q.
(** [parse_f64] reads these decimal fractions as the nearest numbers. *)
Definition Reads_fractions (parse_f64 : bytes -> option f64) : Prop :=
  Forall (fun p => exists x, parse_f64 (B (fst p)) = Some x /\ Nearest (snd p) x)
    [("0.1", (1 / 10)%R); ("0.01", (1 / 100)%R); ("0.8", (8 / 10)%R); ("0.9", (9 / 10)%R)].

(** What an option comes to, with what is assumed when it is left out. *)
Definition Text (names : list string) (ps : list (bytes * bytes)) (s : bytes) : Prop := given names ps = [s].
Definition Maybe_text (names : list string) (ps : list (bytes * bytes)) (s : option bytes) : Prop :=
  given names ps = match s with Some s => [s] | None => [] end.
Definition Size (names : list string) (ps : list (bytes * bytes)) (default : option nat) (n : nat) : Prop :=
  match given names ps with
  | [] => default = Some n
  | [s] => exists k, Natural s k /\ n = N.to_nat k
  | _ => False
  end.
Definition Number (parse_f64 : bytes -> option f64) (names : list string) (ps : list (bytes * bytes)) (default : R) (x : f64) : Prop :=
  match given names ps with
  | [] => Nearest default x
  | [s] => parse_f64 s = Some x
  | _ => False
  end.
