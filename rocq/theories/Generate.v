(** src/generate.rs. *)
From Verif Require Import Base F64 Utf8 Trie Model Sort Par.
Set Implicit Arguments.

(** src/generate.rs:12-20 [struct VocabularyGenerator].  [g_split] gives the matches of the regex in a string, [None] standing
    for an error of the regex engine; [g_allow] is [is_match]. *)
Record generator := Gen {
  g_max_token_length : nat;
  g_insert_probability : f64;
  g_split : option (bytes -> list (option bytes));
  g_allow : option (bytes -> bool);
  g_added : list bytes;
  g_suggested : list bytes;
  g_frequencies : list (bytes * nat)
}.

(** src/generate.rs:23-50 [new]. *)
Definition gen_new (max_token_length : nat) (insert_probability : f64) (split : option (bytes -> list (option bytes)))
    (allow : option (bytes -> bool)) (added suggested : list bytes) : generator :=
  let freqs := add_counts bytes_eqb [] (map (fun t => (t, 1)) added) in
  Gen max_token_length insert_probability split allow added suggested (add_counts bytes_eqb freqs (map (fun t => (t, 1)) suggested)).

(** A [HashSet] of strings. *)
Definition contains (x : bytes) (l : list bytes) : bool := existsb (bytes_eqb x) l.
Definition set_insert (x : bytes) (l : list bytes) : list bytes := if contains x l then l else x :: l.

(** [sample.match_indices(token)]: the number of matches.  They do not overlap, and are found from left to right; an empty
    token matches before every character and at the end. *)
Fixpoint matches_fuel (fuel : nat) (s token : bytes) : nat :=
  match fuel with
  | 0 => 0
  | S fuel' =>
      match s with
      | [] => 0
      | _ :: s' =>
          if starts_with s token then S (matches_fuel fuel' (skipn (length token) s) token)
          else matches_fuel fuel' s' token
      end
  end.
Definition count_matches (s token : bytes) : nat :=
  match token with
  | [] => S (length (char_indices s))
  | _ :: _ => matches_fuel (S (length s)) s token
  end.

(** The tokens of one sample. *)
Section Sample.
  Variable g : generator.
  (** The numbers drawn with [rng.gen_range(0.0..1.0)], in turn.  (There is a sequence for every sample; the code takes
      them from one generator for every thread.) *)
  Variable rnd : nat -> f64.

  (** The number of draws made, and [sample_tokens]. *)
  Definition draws := (nat * list bytes)%type.

  (** src/generate.rs:82-88, 106-112: is the candidate inserted? *)
  Definition try_candidate (st : draws) (candidate : bytes) : draws :=
    if match g_allow g with None => true | Some allow => allow candidate end then
      (S (fst st), if fltb (rnd (fst st)) (g_insert_probability g) then set_insert candidate (snd st) else snd st)
    else st.

  (** src/generate.rs:73-89, 97-113: the prefixes of a suffix of a part. *)
  Fixpoint suffix_loop (suffix : bytes) (idx : list (nat * nat)) (len : nat) (st : draws) : draws :=
    match idx with
    | [] => st
    | (ii, n) :: idx' =>
        let len := len + n in
        if g_max_token_length g <? len then st
        else suffix_loop suffix idx' len (try_candidate st (firstn (ii + n) suffix))
    end.
  (** src/generate.rs:69-90, 93-114: the suffixes of a part.  (The slices are taken at character boundaries.) *)
  Definition part_loop (part : bytes) (st : draws) : draws :=
    fold_left (fun st i => let suffix := skipn (fst i) part in suffix_loop suffix (char_indices suffix) 0 st) (char_indices part) st.

  (** src/generate.rs:66-91: the parts of the sample. *)
  Fixpoint parts_loop (parts : list (option bytes)) (st : draws) : res draws :=
    match parts with
    | [] => Ok st
    | None :: _ => Panic
    | Some part :: parts' => parts_loop parts' (part_loop part st)
    end.

  (** src/generate.rs:120-125: the matches of an added or suggested token. *)
  Fixpoint listed_loop (matches : nat) (token : bytes) (st : draws) : draws :=
    match matches with
    | 0 => st
    | S matches' =>
        if fltb (rnd (fst st)) (g_insert_probability g) then (S (fst st), set_insert token (snd st))
        else listed_loop matches' token (S (fst st), snd st)
    end.

  (** src/generate.rs:65-126: the set [sample_tokens] of a sample. *)
  Definition sample_tokens (sample : bytes) : res (list bytes) :=
    st <- match g_split g with
          | Some split => parts_loop (split sample) (0, [])
          | None => Ok (part_loop sample (0, []))
          end ;;
    Ok (snd (fold_left (fun st token => listed_loop (count_matches sample token) token st) (g_added g ++ g_suggested g) st)).
End Sample.

(** A number drawn from [0.0..1.0]. *)
Definition in_unit (x : f64) : Prop := fleb f0 x = true /\ fltb x f1 = true.

Definition with_frequencies (g : generator) (freqs : list (bytes * nat)) : generator :=
  Gen (g_max_token_length g) (g_insert_probability g) (g_split g) (g_allow g) (g_added g) (g_suggested g) freqs.

(** src/generate.rs:54-139 [feed]: a possible result.  The sets and the map are walked in any order ([Permutation]); the
    updates of the shared map by different chunks interleave in any way.  (The chunks are taken from the list of the samples'
    sets.) *)
Inductive feed_result (g : generator) (threads : nat) (samples : list bytes) : res generator -> Prop :=
| feed_panics sample rnd : In sample samples -> (forall k, in_unit (rnd k)) -> sample_tokens g rnd sample = Panic ->
    feed_result g threads samples Panic
| feed_ends sets schedule entries :
    Forall2 (fun sample set => exists rnd set0, (forall k, in_unit (rnd k)) /\ sample_tokens g rnd sample = Ok set0 /\ Permutation set0 set)
      samples sets ->
    Interleaving (map (fun chunk => map (fun t => (t, 1)) (concat chunk)) (chunks (par_chunk_size threads (length samples) 5) sets)) schedule ->
    Permutation (add_counts bytes_eqb [] schedule) entries ->
    feed_result g threads samples (Ok (with_frequencies g (add_counts bytes_eqb (g_frequencies g) entries))).

(** src/generate.rs:142-144 [current_size]. *)
Definition current_size (g : generator) : nat := length (g_frequencies g).

(** src/generate.rs:172-193, 196-209: tokens are pushed while there is room; [None] stands for a frequency that is not
    found. *)
Fixpoint push_loop (size : nat) (items : list (bytes * option nat * bool)) (st : list bytes * list scored_token)
    : res (list bytes * list scored_token) :=
  match items with
  | [] => Ok st
  | (token, freq, keep) :: items' =>
      let '(seen, vocab) := st in
      if size <=? length vocab then Ok st
      else if negb (contains token seen) && (1 <? length token) then
        match freq with
        | Some freq => push_loop size items' (token :: seen, vocab ++ [ST token (f64_of_nat (freq * length token)) keep])
        | None => Panic
        end
      else push_loop size items' st
  end.

(** src/generate.rs:164: the bytes 0..255 (255 excluded). *)
Definition first_bytes : list byte := map (fun n => match Byte.of_N (N.of_nat n) with Some b => b | None => x00 end) (seq 0 255).

Section Generate.
  (** [f64::ln]. *)
  Variable ln : f64 -> f64.

  (** src/generate.rs:237-243 [logprobs]. *)
  Definition logprobs (pieces : list scored_token) : list scored_token :=
    let sum := fold_left fadd (map st_score pieces) f0 in
    let logsum := ln sum in
    map (fun t => ST (st_value t) (fsub (ln (st_score t)) logsum) (st_keep t)) pieces.

  (** src/generate.rs:148-234 [generate], given the order [entries] in which the map is walked.  [s1] and [s2] are the two
      calls of a sort function.  (The comparison of the second one treats NaN as equal to everything; there are none.) *)
  Definition generate_from (s1 s2 : sorter) (g : generator) (entries : list (bytes * nat)) (size : nat) : res (list scored_token) :=
    let frequent := sort_by_nat_desc s1 snd entries in
    let highest := match frequent with [] => 1 | (_, freq) :: _ => freq end in
    let seen := map (fun b => [b]) first_bytes in
    let vocab := map (fun b => ST [b] (f64_of_nat highest) true) first_bytes in
    let lookup token := hm_get bytes_eqb token (g_frequencies g) in
    let listed := map (fun t => (t, lookup t, true)) (g_added g) ++ map (fun t => (t, lookup t, false)) (g_suggested g) in
    st <- push_loop size listed (seen, vocab) ;;
    st <- push_loop size (map (fun e => (fst e, Some (snd e), false)) frequent) st ;;
    let vocab := logprobs (s2 scored_token (fun a b => fleb (st_score b) (st_score a)) (snd st)) in
    if existsb (fun t => negb (f_is_normal (st_score t))) vocab then Panic else Ok vocab.

  Definition generate_result (s1 s2 : sorter) (g : generator) (size : nat) (r : res (list scored_token)) : Prop :=
    exists entries, Permutation (g_frequencies g) entries /\ r = generate_from s1 s2 g entries size.
End Generate.
