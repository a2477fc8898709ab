(** Which samples of The Stack are worth keeping, and what an infilling text is made of. *)
From Coq Require Import Reals Permutation.
From Flocq Require Import BinarySingleNaN.
From Coq.Strings Require Import String.
From Verif Require Import Base F64 SpecUtf8.
Set Implicit Arguments.
Local Open Scope list_scope.

(** Those elements of a list that have the property, in order. *)
Inductive Sifted {A} (P : A -> Prop) : list A -> list A -> Prop :=
| Sifted_nil : Sifted P [] []
| Sifted_in a l kept : P a -> Sifted P l kept -> Sifted P (a :: l) (a :: kept)
| Sifted_out a l kept : ~ P a -> Sifted P l kept -> Sifted P (a :: l) kept.

(** Neither ASCII nor a Chinese character. *)
Definition foreign (c : N) : Prop :=
  (0x7F < c /\ ~ 0x4E00 <= c <= 0x9FFF /\ ~ 0x3400 <= c <= 0x4DBF /\ ~ 0xF900 <= c <= 0xFAFF)%N.
(** At most the [a/b]-th part of the text has the property. *)
Definition at_most {A} (a b : nat) (P : A -> Prop) (text : list A) : Prop :=
  exists kept, Sifted P text kept /\ b * List.length kept <= a * List.length text.
(** No match is longer than 256, and at most half of the text is matched. *)
Definition unsuspicious (text : list N) (matches : list (list N)) : Prop :=
  Forall (fun m => List.length m <= 256) matches /\ 2 * List.length (List.concat matches) <= List.length text.
Definition is_data (lang : string) : Prop := In lang ["json"; "yaml"; "toml"; "sql"; "r"; "hcl"]%string.
Definition line_ends (text : list N) : nat := count_occ N.eq_dec text 0x0A%N.

Definition worth_keeping (is_digit : N -> bool) (findalls : list (list N -> list (list N))) (lang : string)
    (text : list N) (size : Z) (avg_line_length : f64) (max_line_length : Z) (alphanum_fraction : f64) : Prop :=
  (16 <= size <= 262144)%Z /\ (is_data lang -> line_ends text <= 256) /\
  (10 <= B2R avg_line_length <= 100)%R /\ (max_line_length <= 1000)%Z /\ (1 / 4 <= B2R alphanum_fraction)%R /\
  at_most 3 10 (fun c => is_digit c = true) text /\
  Forall (fun findall => unsuspicious text (findall text)) findalls /\
  at_most 1 5 foreign text.

(** [s] is cut into pieces of [k] characters, the last of which may be shorter. *)
Inductive Cut {A} (k : nat) : list A -> list (list A) -> Prop :=
| Cut_nil : Cut k [] []
| Cut_last s : s <> [] -> List.length s <= k -> Cut k s [s]
| Cut_more a s l : List.length a = k -> s <> [] -> Cut k s l -> Cut k (a ++ s) (a :: l).
(** The size of the pieces: a tenth of the text, but from 32 to 128. *)
Definition piece_size (n k : nat) : Prop := (n < 320 /\ k = 32) \/ (320 <= n < 1280 /\ k = n / 10) \/ (1280 <= n /\ k = 128).
(** [xs] with DEL between. *)
Inductive Joined : list (list N) -> list N -> Prop :=
| Joined_one x : Joined [x] x
| Joined_more x xs s : xs <> [] -> Joined xs s -> Joined (x :: xs) (x ++ 0x7F%N :: s).
(** What a sample adds to an infilling text: nothing if it has less than 289 characters, else ten of its pieces in any order. *)
Definition Adds (sample added : list N) : Prop :=
  (List.length sample < 289 /\ added = []) \/
  (289 <= List.length sample /\ exists k pieces drawn rest, piece_size (List.length sample) k /\ Cut k sample pieces /\
    Permutation pieces (drawn ++ rest) /\ List.length drawn = 10 /\ Joined drawn added).
(** An infilling text made of four samples. *)
Definition Infills (samples : list (list N)) (text : list N) : Prop :=
  List.length samples = 4 /\ exists added, Forall2 Adds samples added /\ text = List.concat added.
(** The parts of a text between the characters NUL. *)
Inductive Split : list N -> list (list N) -> Prop :=
| Split_last p : ~ In 0%N p -> Split p [p]
| Split_more p s l : ~ In 0%N p -> Split s l -> Split (p ++ 0%N :: s) (p :: l).
(** The samples that infilling may use: the first fifth of every file. *)
Definition Pool (files : list (list N)) (pool : list (list N)) : Prop :=
  exists parts, Forall2 Split files parts /\ pool = flat_map (fun l => firstn (List.length l / 5) l) parts.
(** The reasons for which a sample is dropped, in the order in which they are looked for; [passes f]: the sample has not the fault. *)
Inductive fault := Bad_size | Bad_lines | Bad_alphanum | Bad_number | Bad_regex | Bad_unicode.
Definition passes (is_digit : N -> bool) (findalls : list (list N -> list (list N))) (lang : string)
    (text : list N) (size : Z) (avg_line_length : f64) (max_line_length : Z) (alphanum_fraction : f64) (f : fault) : Prop :=
  match f with
  | Bad_size => (16 <= size <= 262144)%Z
  | Bad_lines => (is_data lang -> line_ends text <= 256) /\ (10 <= B2R avg_line_length <= 100)%R /\ (max_line_length <= 1000)%Z
  | Bad_alphanum => (1 / 4 <= B2R alphanum_fraction)%R
  | Bad_number => at_most 3 10 (fun c => is_digit c = true) text
  | Bad_regex => Forall (fun findall => unsuspicious text (findall text)) findalls
  | Bad_unicode => at_most 1 5 foreign text
  end.
Definition before (f : fault) : list fault :=
  match f with
  | Bad_size => []
  | Bad_lines => [Bad_size]
  | Bad_alphanum => [Bad_size; Bad_lines]
  | Bad_number => [Bad_size; Bad_lines; Bad_alphanum]
  | Bad_regex => [Bad_size; Bad_lines; Bad_alphanum; Bad_number]
  | Bad_unicode => [Bad_size; Bad_lines; Bad_alphanum; Bad_number; Bad_regex]
  end.
