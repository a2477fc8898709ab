(** scripts/datagen.py: the filters of [generate_the_stack] and the mixing of [generate_infilling].
    A Python [str] is the list of its characters (code points). *)
From Coq.Strings Require Import String.
From Verif Require Import Base F64 SpecUtf8 Scripts.
Set Implicit Arguments.
Local Open Scope list_scope.

(** ** The filters *)
(** The fields of a sample of The Stack that are read (scripts/datagen.py:81-95). *)
Record stack_sample := StackSample { content : list N; size : Z; avg_line_length : f64; max_line_length : Z; alphanum_fraction : f64 }.
(** scripts/datagen.py:73-79: the counters. *)
Record stats := Stats { size_filter : nat; num_lines_filter : nat; alphanum_filter : nat; number_filter : nat; regex_filter : nat; unicode_filter : nat }.
Definition no_stats : stats := Stats 0 0 0 0 0 0.
Definition count_size (t : stats) : stats := Stats (S (size_filter t)) (num_lines_filter t) (alphanum_filter t) (number_filter t) (regex_filter t) (unicode_filter t).
Definition count_lines (t : stats) : stats := Stats (size_filter t) (S (num_lines_filter t)) (alphanum_filter t) (number_filter t) (regex_filter t) (unicode_filter t).
Definition count_alphanum (t : stats) : stats := Stats (size_filter t) (num_lines_filter t) (S (alphanum_filter t)) (number_filter t) (regex_filter t) (unicode_filter t).
Definition count_number (t : stats) : stats := Stats (size_filter t) (num_lines_filter t) (alphanum_filter t) (S (number_filter t)) (regex_filter t) (unicode_filter t).
Definition count_regex (t : stats) : stats := Stats (size_filter t) (num_lines_filter t) (alphanum_filter t) (number_filter t) (S (regex_filter t)) (unicode_filter t).
Definition count_unicode (t : stats) : stats := Stats (size_filter t) (num_lines_filter t) (alphanum_filter t) (number_filter t) (regex_filter t) (S (unicode_filter t)).

(** scripts/datagen.py:16-17 [mb], for an integer. *)
Definition mb (n : Z) : Z := (n * 1024 ^ 2)%Z.
(** [a > b] for an [int] and a [float] of Python compares the numbers; here for those that are exact as [float].
    The literals 0.2, 0.25 and 0.3 are the nearest numbers in binary64. *)
Definition literal (n d : Z) : f64 := fdiv (f64_of_Z n) (f64_of_Z d).
(** [a / b] for [int]: nearest-even; here for those that are exact as [float]. *)
Definition ratio_of (a b : nat) : f64 := fdiv (f64_of_nat a) (f64_of_nat b).

(** scripts/datagen.py:20-43. *)
Definition in_block (lo hi c : N) : bool := ((lo <=? c) && (c <=? hi))%N.
Definition has_many_non_chinese_non_ascii (text : list N) (p : f64) : bool :=
  let '(total, other) := fold_left (fun t c =>
    let '(total, other) := t in
    if in_block 0x0000 0x007F c then (S total, other)
    else if in_block 0x4E00 0x9FFF c || in_block 0x3400 0x4DBF c || in_block 0xF900 0xFAFF c then (S total, other)
    else (S total, S other)) text (0, 0) in
  if total =? 0 then false else fltb p (ratio_of other total).

(** scripts/datagen.py:106. *)
Definition data_languages : list string := ["json"; "yaml"; "toml"; "sql"; "r"; "hcl"]%string.

Section Filters.
  (** [str.isdigit] of a character (a table of Unicode), and [findall] of the compiled expressions (lines 66-71). *)
  Variable is_digit : N -> bool.
  Variable findalls : list (list N -> list (list N)).

  (** scripts/datagen.py:128-139: [None]: ZeroDivisionError. *)
  Fixpoint suspicious (finds : list (list N -> list (list N))) (text : list N) : option bool :=
    match finds with
    | [] => Some false
    | findall :: finds' =>
        let matches := findall text in
        if existsb (fun m => 256 <? List.length m) matches then Some true
        else if List.length text =? 0 then None
        else if fltb fhalf (ratio_of (fold_left (fun n m => n + List.length m) matches 0) (List.length text)) then Some true
        else suspicious finds' text
    end.
  (** scripts/datagen.py:97-147: the counters after the sample, and is it written?  [None]: ZeroDivisionError. *)
  Definition filters (lang : string) (s : stack_sample) (t : stats) : option (stats * bool) :=
    let num_lines := count_occ N.eq_dec (content s) 0x0A%N in
    if ((size s <? 16) || (mb 1 / 4 <? size s))%Z then Some (count_size t, false)
    else
      let data := existsb (String.eqb lang) data_languages in
      if data && (256 <? num_lines) then Some (count_lines t, false)
      else
        let t := if negb data && (4096 <? num_lines) then count_lines t else t in
        if fltb (f64_of_Z 100) (avg_line_length s) || fltb (avg_line_length s) (f64_of_Z 10) || (1000 <? max_line_length s)%Z then Some (count_lines t, false)
        else if fltb (alphanum_fraction s) (literal 1 4) then Some (count_alphanum t, false)
        else if fltb (fmul (literal 3 10) (f64_of_nat (List.length (content s)))) (f64_of_nat (List.length (filter is_digit (content s)))) then Some (count_number t, false)
        else
          match suspicious findalls (content s) with
          | None => None
          | Some true => Some (count_regex t, false)
          | Some false =>
              if has_many_non_chinese_non_ascii (content s) (literal 1 5) then Some (count_unicode t, false)
              else Some (t, true)
          end.
  (** scripts/datagen.py:60, 73-168: the contents of the test and of the training file, [written], the counters and [samples_visited].
      [None]: an exception. *)
  Record stack_result := StackResult { test_file : bytes; train_file : bytes; bytes_written : Z; final_stats : stats; visited : nat }.
  Fixpoint stack_loop (lang : string) (train test written : Z) (t : stats) (n : nat) (samples : list stack_sample) : option stack_result :=
    match samples with
    | [] => Some (StackResult [] [] written t n)
    | s :: samples' =>
        match filters lang s t with
        | None => None
        | Some (t, false) => stack_loop lang train test written t (S n) samples'
        | Some (t, true) =>
            let encoded := encode_string (content s) in
            let after := stack_loop lang train test (written + Z.of_nat (List.length encoded) + 1) t (S n) samples' in
            if (written <? test)%Z then option_map (fun r => StackResult (encoded ++ x00 :: test_file r) (train_file r) (bytes_written r) (final_stats r) (visited r)) after
            else if (written <? test + train)%Z then option_map (fun r => StackResult (test_file r) (encoded ++ x00 :: train_file r) (bytes_written r) (final_stats r) (visited r)) after
            else Some (StackResult [] [] written t (S n))
        end
    end.
  Definition generate_the_stack (lang : string) (train test : Z) (samples : list stack_sample) : option stack_result := stack_loop lang train test 0 no_stats 0 samples.
End Filters.

(** ** Infilling *)
(** [str.split("\0")]. *)
Fixpoint split_text (s : list N) : list (list N) :=
  match s with
  | [] => [[]]
  | c :: s' =>
      if N.eqb c 0 then [] :: split_text s'
      else match split_text s' with part :: parts => (c :: part) :: parts | [] => [[c]] end
  end.
(** scripts/datagen.py:230-239: the samples that infilling draws from, of the files of the directory train (read as UTF-8;
    infilling.bin itself has just been emptied). *)
Definition infilling_pool (files : list (list N)) : list (list N) :=
  flat_map (fun text => let parts := split_text text in firstn (List.length parts / 5) parts) files.

(** [list.pop(i)]. *)
Definition pop {A} (l : list A) (i : nat) : option (A * list A) :=
  match nth_error l i with
  | Some a => Some (a, firstn i l ++ skipn (S i) l)
  | None => None
  end.
(** scripts/datagen.py:249-252. *)
Definition chunk_size (n : nat) : nat := Nat.max 32 (Nat.min (n / 10) 128).
Fixpoint chunks (fuel k : nat) (s : list N) : list (list N) :=
  match fuel, s with
  | S fuel, _ :: _ => firstn k s :: chunks fuel k (skipn k s)
  | _, _ => []
  end.

Section Infilling.
  (** [random.randrange(n)] called as the [i]-th. *)
  Variable rand : nat -> nat -> nat.

  (** [l.pop(random.randrange(len(l)))]; a panic stands for ValueError (an empty range). *)
  Definition draw {A} (i : nat) (l : list A) : res (A * list A) :=
    if List.length l =? 0 then Panic
    else match pop l (rand i (List.length l)) with Some r => Ok r | None => Panic end.

  (** scripts/datagen.py:257-263. *)
  Fixpoint mix (times i : nat) (cs : list (list N)) (text : list N) : res (list N * nat) :=
    match times with
    | 0 =>
        '(c, _) <- draw i cs ;;
        Ok (text ++ c, S i)
    | S times =>
        '(c, cs) <- draw i cs ;;
        mix times (S i) cs (text ++ c ++ [0x7F%N])
    end.
  (** scripts/datagen.py:244-263: [times] samples are added to [text]. *)
  Fixpoint add_samples (times i : nat) (pool : list (list N)) (text : list N) : res (list N * list (list N) * nat) :=
    match times with
    | 0 => Ok (text, pool, i)
    | S times =>
        '(sample, pool) <- draw i pool ;;
        let cs := chunks (List.length sample) (chunk_size (List.length sample)) sample in
        if List.length cs <? 10 then add_samples times (S i) pool text
        else
          '(text, i) <- mix 9 (S i) cs text ;;
          add_samples times i pool text
    end.
  (** scripts/datagen.py:228, 241-278: the contents of the test and of the training file. *)
  Fixpoint infill_loop (fuel : nat) (train test written : Z) (i : nat) (pool : list (list N)) : res (bytes * bytes) :=
    match fuel with
    | 0 => Diverge
    | S fuel =>
        '(text, pool, i) <- add_samples 4 i pool [] ;;
        let encoded := encode_string text in
        if (written <? test)%Z then
          '(a, b) <- infill_loop fuel train test (written + Z.of_nat (List.length encoded) + 1) i pool ;;
          Ok (encoded ++ x00 :: a, b)
        else if (written <? test + train)%Z then
          '(a, b) <- infill_loop fuel train test (written + Z.of_nat (List.length encoded) + 1) i pool ;;
          Ok (a, encoded ++ x00 :: b)
        else Ok ([], [])
    end.
  Definition generate_infilling (fuel : nat) (train test : Z) (files : list (list N)) : res (bytes * bytes) := infill_loop fuel train test 0 0 (infilling_pool files).
End Infilling.
