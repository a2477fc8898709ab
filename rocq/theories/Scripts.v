(** scripts/*.py: the files of samples, what is reported about them, and the smaller vocabularies of tiktoken.
    A Python [str] is its UTF-8 bytes (texts with lone surrogates, which can not be encoded, are left out); [int] is unbounded. *)
From Coq Require Import Permutation Sorted.
From Coq.Strings Require Import String.
From Verif Require Import Base Utf8 SpecJson Serde Regex Cli.
Set Implicit Arguments.
Local Open Scope list_scope.

(** ** scripts/datagen.py *)
(** scripts/datagen.py:149-159, 195-205 and 265-275: the loop that writes the samples.  [splits] are the names under which the
    files were opened; [None]: the exception KeyError.  The results are the contents of the test and of the training file.
    The samples are those that pass the filters (lines 81-147). *)
Fixpoint write_samples (splits : list bytes) (train test written : Z) (samples : list bytes) : option (bytes * bytes) :=
  match samples with
  | [] => Some ([], [])
  | s :: samples' =>
      let after := write_samples splits train test (written + Z.of_nat (List.length s) + 1) samples' in
      if (written <? test)%Z then
        if existsb (fun k => beqs k "test") splits then option_map (fun f => (s ++ x00 :: fst f, snd f)) after else None
      else if (written <? test + train)%Z then
        if existsb (fun k => beqs k "train") splits then option_map (fun f => (fst f, s ++ x00 :: snd f)) after else None
      else Some ([], [])
  end.
(** scripts/datagen.py:61-64, 223-226. *)
Definition both_splits : list bytes := [B "train"; B "test"].
(** scripts/datagen.py:185-188: [["train" "test"]] lacks a comma, so the two literals are one string. *)
Definition markdown_splits : list bytes := [B "train" ++ B "test"].
(** scripts/datagen.py:46-168 [generate_the_stack] and 213-280 [generate_infilling]: of all that the samples are made from, only
    the samples. *)
Definition generate_files (train test : Z) (samples : list bytes) : option (bytes * bytes) := write_samples both_splits train test 0 samples.
(** scripts/datagen.py:171-210 [generate_chinese_markdown]. *)
Definition generate_markdown (train test : Z) (samples : list bytes) : option (bytes * bytes) := write_samples markdown_splits train test 0 samples.

(** ** scripts/evaluate.py *)
(** [open(file).read()] of Python in text mode: CR LF and CR are read as LF. *)
Fixpoint universal_newlines (s : bytes) : bytes :=
  match s with
  | [] => []
  | b :: s' =>
      if Byte.eqb b x0d then x0a :: match s' with c :: s'' => if Byte.eqb c x0a then universal_newlines s'' else universal_newlines s' | [] => [] end
      else b :: universal_newlines s'
  end.
(** scripts/evaluate.py:152-153. *)
Definition evaluated_samples (contents : bytes) : list bytes := split_on x00 (universal_newlines contents).
(** scripts/evaluate.py:148, 154-165: the counts of a file; [frequencies[id] += 1] for every token; [None]: IndexError.
    (A negative id does not occur.) *)
Definition count_tokens (frequencies : list nat) (tokens : list nat) : option (list nat) :=
  fold_left (fun fs id => match fs with
                          | Some fs => if id <? List.length fs then Some (firstn id fs ++ S (nth id fs 0) :: skipn (S id) fs) else None
                          | None => None
                          end) tokens (Some frequencies).
Record report := Report { num_tokens : nat; num_chars : nat }.
Definition evaluate_file (encode : bytes -> list nat) (contents : bytes) (frequencies : list nat) : option (report * list nat) :=
  let samples := evaluated_samples contents in
  let tokens := flat_map encode samples in
  match count_tokens frequencies tokens with
  | Some frequencies =>
      (* [num_chars / num_tokens]: ZeroDivisionError *)
      if List.length tokens =? 0 then None
      else Some (Report (List.length tokens) (fold_right (fun s n => List.length (char_indices s) + n) 0 samples), frequencies)
  | None => None
  end.
Fixpoint evaluate_files (encode : bytes -> list nat) (files : list bytes) (frequencies : list nat) : option (list report * list nat) :=
  match files with
  | [] => Some ([], frequencies)
  | contents :: files' =>
      match evaluate_file encode contents frequencies with
      | Some (r, frequencies) => option_map (fun x => (r :: fst x, snd x)) (evaluate_files encode files' frequencies)
      | None => None
      end
  end.
(** scripts/evaluate.py:139-140, 180-183: the sums of [num_buckets] slices of the frequencies, which are sorted, greatest first. *)
Definition num_buckets : nat := 50.
Definition buckets (vocab_size : nat) (sorted : list nat) : list nat :=
  map (fun i => list_sum (firstn (vocab_size / num_buckets) (skipn (i * (vocab_size / num_buckets)) sorted))) (seq 0 num_buckets).
(** scripts/evaluate.py:139-186: the result, for whatever way of sorting. *)
Inductive evaluation (encode : bytes -> list nat) (vocab_size : nat) (files : list bytes) : option (list report * list nat) -> Prop :=
| evaluation_ok reports frequencies sorted : evaluate_files encode files (repeat 0 vocab_size) = Some (reports, frequencies) ->
    Permutation frequencies sorted -> StronglySorted (fun x y => y <= x) sorted ->
    evaluation encode vocab_size files (Some (reports, buckets vocab_size sorted))
| evaluation_error : evaluate_files encode files (repeat 0 vocab_size) = None -> evaluation encode vocab_size files None.

(** ** scripts/convert.py *)
(** [bytes([i])]. *)
Definition byte_of_nat (i : nat) : byte := match Byte.of_N (N.of_nat i) with Some b => b | None => x00 end.
(** A dict of Python: assignment keeps the place of a key. *)
Fixpoint dict_set (d : list (bytes * nat)) (k : bytes) (v : nat) : list (bytes * nat) :=
  match d with
  | [] => [(k, v)]
  | (k', v') :: d' => if bytes_eqb k k' then (k, v) :: d' else (k', v') :: dict_set d' k v
  end.
Definition dict_in (d : list (bytes * nat)) (k : bytes) : bool := existsb (fun e => bytes_eqb k (fst e)) d.
(** scripts/convert.py:92-94. *)
Definition with_bytes (ranks : list (bytes * nat)) : list (bytes * nat) := fold_left (fun d i => dict_set d [byte_of_nat i] i) (seq 0 256) ranks.
(** scripts/convert.py:96-100; [decode]: [enc.decode_single_token_bytes], [None]: KeyError. *)
Fixpoint with_frequent (decode : nat -> option bytes) (i : nat) (ids : list nat) (d : list (bytes * nat)) : option (list (bytes * nat)) :=
  match ids with
  | [] => Some d
  | id :: ids' =>
      match decode id with
      | Some val => with_frequent decode (S i) ids' (if dict_in d val then d else dict_set d val (i + 256))
      | None => None
      end
  end.
(** scripts/convert.py:84-102; [sorted_ids]: the ids by descending frequency. *)
Definition truncated (ranks : list (bytes * nat)) (decode : nat -> option bytes) (sorted_ids : list nat) (v : nat) : option (list (bytes * nat)) :=
  option_map (filter (fun e => snd e <? v)) (with_frequent decode 0 (firstn v sorted_ids) (with_bytes ranks)).

(** ** scripts/find.py *)
(** [str.count]: the occurrences from left to right, without overlap; [skip] characters belong to the one found last. *)
Fixpoint begins_with (needle s : list N) : bool :=
  match needle, s with
  | [], _ => true
  | a :: needle', b :: s' => N.eqb a b && begins_with needle' s'
  | _, [] => false
  end.
Fixpoint count_from (skip : nat) (needle s : list N) : nat :=
  match s with
  | [] => 0
  | _ :: s' =>
      match skip with
      | S skip' => count_from skip' needle s'
      | 0 => if begins_with needle s then S (count_from (List.length needle - 1) needle s') else count_from 0 needle s'
      end
  end.
Definition str_count (needle s : list N) : nat := match needle with [] => S (List.length s) | _ => count_from 0 needle s end.
(** scripts/find.py:14-47: occurrences, samples with at least one, samples.  [None]: UnicodeDecodeError in line 27, or ZeroDivisionError in line 47 if there
    is no file.  (The lines for the single files are not modelled.) *)
Definition find_samples (needle : list N) (files : list bytes) : option (nat * nat * nat) :=
  let samples := flat_map (split_on x00) files in
  let counts := map (fun s => str_count needle (chars s)) samples in
  if forallb utf8_ok samples then
    match files with
    | [] => None
    | _ => Some (list_sum counts, List.length (filter (fun c => 0 <? c) counts), List.length samples)
    end
  else None.
(** scripts/find.py:47: the percentage of the last line, as a fraction. *)
Definition total_percentage (f : nat * nat * nat) : nat * nat := let '(occurrences, by_sample, samples) := f in (100 * occurrences, samples).
