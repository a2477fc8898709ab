(** Independent vocabulary for the properties of the tokenizer. *)
From Verif Require Import Base Model SpecModel SpecUtf8.
Set Implicit Arguments.

Definition Prefix {A} (p s : list A) : Prop := exists r, s = p ++ r.

(** No special token starts at the beginning of [s]. *)
Definition no_special_at (specials : list bytes) (s : bytes) : Prop :=
  forall sp, In sp specials -> ~ Prefix sp s.

(** The special token number [k] is the earliest registered one that [s] starts with. *)
Definition special_at (specials : list bytes) (s : bytes) (k : nat) : Prop :=
  (exists sp, nth_error specials k = Some sp /\ Prefix sp s) /\
  forall k' sp', k' < k -> nth_error specials k' = Some sp' -> ~ Prefix sp' s.

(** Pieces a text is cut into: a special token, by its registration number, or ordinary text. *)
Inductive piece := Special (k : nat) | Plain (p : bytes).

(** The text is cut at the leftmost special token, repeatedly. *)
Inductive Pieces (specials : list bytes) : bytes -> list piece -> Prop :=
| Pieces_nil : Pieces specials [] []
| Pieces_special k sp r ps :
    sp ++ r <> [] -> special_at specials (sp ++ r) k -> nth_error specials k = Some sp ->
    Pieces specials r ps -> Pieces specials (sp ++ r) (Special k :: ps)
| Pieces_plain p r ps :
    p <> [] ->
    (* no special token starts inside p, ... *)
    (forall a b, p = a ++ b -> b <> [] -> no_special_at specials (b ++ r)) ->
    (* ... and p ends where the text ends or the next special token starts *)
    (r = [] \/ exists k, special_at specials r k) ->
    Pieces specials r ps -> Pieces specials (p ++ r) (Plain p :: ps).

(** The text of a piece. *)
Definition piece_text (specials : list bytes) (p : piece) : bytes :=
  match p with Special k => nth k specials [] | Plain s => s end.

(** What registering the tokens [l] one after the other leaves: the first
    occurrence of each of them, in order. *)
Definition first_occurrences (l : list bytes) : list bytes :=
  rev (nodup (list_eq_dec Byte.byte_eq_dec) (rev l)).

(** Dropping the CR of every CR LF. *)
Inductive CrDropped : bytes -> bytes -> Prop :=
| CrDropped_nil : CrDropped [] []
| CrDropped_crlf r out : CrDropped (x0a :: r) out -> CrDropped (x0d :: x0a :: r) out
| CrDropped_keep b r out :
    ~ (b = x0d /\ exists r', r = x0a :: r') -> CrDropped r out -> CrDropped (b :: r) (b :: out).

(** The meaning of a list of ids, for a base vocabulary and the registered special tokens: maximal
    runs of base ids stand for the lossily decoded bytes of their tokens, the id
    [length vocab + k] for the k-th special token, shown only if [incl]. *)
Inductive Decodes (vocab : list scored_token) (specials : list bytes) (incl : bool) : list N -> bytes -> Prop :=
| Decodes_last run bs out :
    Spells vocab run bs -> Lossy bs out -> Decodes vocab specials incl run out
| Decodes_special run bs out k sp ids out' :
    Spells vocab run bs -> Lossy bs out -> nth_error specials k = Some sp ->
    Decodes vocab specials incl ids out' ->
    Decodes vocab specials incl (run ++ N.of_nat (length vocab + k) :: ids)
            (out ++ (if incl then sp else []) ++ out').

(** [id] is the first id in [ids] that is [n] or more. *)
Definition first_beyond (n : N) (ids : list N) (id : N) : Prop :=
  exists a b, ids = a ++ id :: b /\ Forall (fun i => (i < n)%N) a /\ (n <= id)%N.

(** What the theorems about a tokenizer built from [vocab] and the special tokens [sps] assume:
    all ids fit in 32 bits and special tokens are Rust strings. *)
Definition tok_fits (vocab : list scored_token) (sps : list bytes) : Prop :=
  fits vocab /\ (N.of_nat (length vocab + length (first_occurrences sps)) < 2 ^ 32)%N /\ Forall Utf8 sps.
