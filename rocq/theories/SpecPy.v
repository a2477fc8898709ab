(** What the stub file bindings/python/tokengeex.pyi promises: the types of the arguments. *)
From Coq.Strings Require Import String.
From Coq Require Import Sorted.
From Verif Require Import Base F64 Utf8 SpecUtf8 SpecJson Regex Trie Model SpecModel Py.
Set Implicit Arguments.
Local Open Scope list_scope.

Inductive ty := TText | TNumber | TId | TByte | TFlag | TState | TSeq (a : ty).
(** The values of a type.  A [bool] is a number, as always in Python; a number must fit. *)
Fixpoint Has (a : ty) (v : py) : Prop :=
  match a, v with
  | TText, PyStr s => Forall scalar s
  | TNumber, PyFloat _ | TNumber, PyBool _ => True
  | TNumber, PyInt z => f_is_finite (f64_of_Z z) = true
  | TId, PyInt z => (0 <= z < 2 ^ 32)%Z
  | TByte, PyInt z => (0 <= z < 256)%Z
  | TId, PyBool _ | TByte, PyBool _ | TFlag, PyBool _ => True
  | TState, PyBytes _ => True
  | TSeq a, PyList l | TSeq a, PyTuple l => Forall (Has a) l
  | TSeq a, PyBytes s => Forall (fun b => Has a (PyInt (Z.of_N (bN b)))) s
  | _, _ => False
  end.
Definition signature (m : method) : list ty :=
  match m with
  | encode_ | encode_ordinary_ => [TText; TNumber]
  | encode_batch_ | encode_ordinary_batch_ => [TSeq TText; TNumber]
  | decode_ => [TSeq TId; TFlag]
  | decode_batch_ => [TSeq (TSeq TId); TFlag]
  | token_to_id_ | base_token_to_id_ => [TSeq TByte]
  | special_token_to_id_ | save_ | common_prefix_search_ => [TText]
  | id_to_token_ | id_to_base_token_ | id_to_special_token_ | is_special_ | is_base_ => [TId]
  | add_special_tokens_ => [TSeq TText]
  | special_tokens_ | vocab_size_ | base_vocab_size_ | special_vocab_size_ | to_string_ | getstate_ => []
  | setstate_ => [TState]
  end.
(** The exceptions for wrong arguments. *)
Definition Refusal (e : exc) : Prop := e = TypeError \/ e = OverflowError \/ e = UnicodeEncodeError.

(** The special tokens a call registers: those of add_special_tokens, if all of them are text. *)
Definition text_ok (v : py) : Prop := exists s, v = PyStr s /\ Forall scalar s.
Inductive Adds : method * list py -> list bytes -> Prop :=
| adds_tokens v l ss : v = PyList (map PyStr ss) \/ v = PyTuple (map PyStr ss) -> Forall (Forall scalar) ss -> l = map encode_string ss ->
    Adds (add_special_tokens_, [v]) l
| adds_refused args : ~ Forall2 Has (signature add_special_tokens_) args -> Adds (add_special_tokens_, args) []
| adds_no_bytes : Adds (add_special_tokens_, [PyBytes []]) []
| adds_other m args : m <> add_special_tokens_ -> Adds (m, args) [].

(** ** What comes back *)
Inductive rty := RNone | RId | RSize | RText | RBytes | RNumber | RFlag | ROptional (a : rty) | RList (a : rty) | RPair (a b : rty).
Fixpoint Gives (a : rty) (v : py) : Prop :=
  match a, v with
  | RNone, PyNone => True
  | RId, PyInt z => (0 <= z < 2 ^ 32)%Z
  | RSize, PyInt z => (0 <= z)%Z
  | RText, PyStr s => Forall scalar s
  | RBytes, PyBytes _ => True
  | RNumber, PyFloat _ => True
  | RFlag, PyBool _ => True
  | ROptional _, PyNone => True
  | ROptional a, v => Gives a v
  | RList a, PyList l => Forall (Gives a) l
  | RPair a b, PyTuple [v1; v2] => Gives a v1 /\ Gives b v2
  | _, _ => False
  end.
Definition result (m : method) : rty :=
  match m with
  | encode_ | encode_ordinary_ | common_prefix_search_ => RList RId
  | encode_batch_ | encode_ordinary_batch_ => RList (RList RId)
  | decode_ | to_string_ => RText
  | decode_batch_ | special_tokens_ => RList RText
  | token_to_id_ | base_token_to_id_ | special_token_to_id_ => ROptional RId
  | id_to_token_ => ROptional RBytes
  | id_to_base_token_ => ROptional (RPair RBytes RNumber)
  | id_to_special_token_ => ROptional RText
  | is_special_ | is_base_ => RFlag
  | vocab_size_ | base_vocab_size_ | special_vocab_size_ => RSize
  | add_special_tokens_ | save_ | setstate_ => RNone
  | getstate_ => RBytes
  end.

(** [s] is [n] in the decimal system, without superfluous zeros. *)
Definition digit_value (b : byte) : N := (bN b - 48)%N.
Definition Numeral (n : N) (s : bytes) : Prop :=
  Digits s /\ fold_left (fun acc b => (10 * acc + digit_value b)%N) s 0%N = n /\ (forall s', s = x30 :: s' -> s' = []).
(** The exceptions that a method may raise for arguments of the right types. *)
Definition Complains (m : method) (e : exc) : Prop :=
  match m with
  | encode_ | encode_ordinary_ | encode_batch_ | encode_ordinary_batch_ =>
      exists n num, Numeral n num /\ e = TokenGeeXError (Some (B "no path to position " ++ num ++ B "/" ++ num))
  | decode_ | decode_batch_ =>
      exists n num, Numeral n num /\ e = TokenGeeXError (Some (B "token id " ++ num ++ B " is out of bounds"))
  | setstate_ => e = PyException
  | _ => False
  end.
(** The texts in the arguments. *)
Definition texts_in (v : py) : list (list N) :=
  match v with
  | PyStr s => [s]
  | PyList l | PyTuple l => flat_map (fun v => match v with PyStr s => [s] | _ => [] end) l
  | _ => []
  end.

(** ** What the methods that only ask tell *)
(** A number: an [int], or [True] or [False].  An id; bytes. *)
Definition Number (v : py) (n : N) : Prop := v = PyInt (Z.of_N n) \/ v = PyBool true /\ n = 1%N \/ v = PyBool false /\ n = 0%N.
Definition Id (v : py) (id : N) : Prop := Number v id /\ (id < 2 ^ 32)%N.
Definition Bytes (v : py) (s : bytes) : Prop :=
  v = PyBytes s \/ exists l, (v = PyList l \/ v = PyTuple l) /\ Forall2 (fun v b => Number v (bN b)) l s.
Definition Text (v : py) (s : bytes) : Prop := exists cs, v = PyStr cs /\ Forall scalar cs /\ encode_string cs = s.
Definition int (n : nat) : py := PyInt (Z.of_nat n).
(** The ids of the tokens of [vocab] are their positions; those of the special tokens [sps] follow. *)
Section Knows.
  Variable vocab : list scored_token.
  Variable sps : list bytes.
  Let n := List.length vocab.
  Let k := List.length sps.
  Inductive Knows : method -> list py -> py -> Prop :=
  | k_vocab_size : Knows vocab_size_ [] (int (n + k))
  | k_base_vocab_size : Knows base_vocab_size_ [] (int n)
  | k_special_vocab_size : Knows special_vocab_size_ [] (int k)
  | k_special_tokens l : Forall2 Text l sps -> Knows special_tokens_ [] (PyList l)
  | k_is_base a id b : Id a id -> (b = true <-> N.to_nat id < n) -> Knows is_base_ [a] (PyBool b)
  | k_is_special a id b : Id a id -> (b = true <-> n <= N.to_nat id < n + k) -> Knows is_special_ [a] (PyBool b)
  | k_id_base a id t : Id a id -> token_at vocab id t -> Knows id_to_token_ [a] (PyBytes (st_value t))
  | k_id_special a id j s : Id a id -> N.to_nat id = n + j -> nth_error sps j = Some s -> Knows id_to_token_ [a] (PyBytes s)
  | k_id_none a id : Id a id -> n + k <= N.to_nat id -> Knows id_to_token_ [a] PyNone
  | k_base a id t : Id a id -> token_at vocab id t -> Knows id_to_base_token_ [a] (PyTuple [PyBytes (st_value t); PyFloat (st_score t)])
  | k_base_none a id : Id a id -> n <= N.to_nat id -> Knows id_to_base_token_ [a] PyNone
  | k_special a id j s v : Id a id -> N.to_nat id = n + j -> nth_error sps j = Some s -> Text v s -> Knows id_to_special_token_ [a] v
  | k_special_none a id : Id a id -> N.to_nat id < n \/ n + k <= N.to_nat id -> Knows id_to_special_token_ [a] PyNone
  | k_of_base a id t : latest vocab id t -> Bytes a (st_value t) -> Knows base_token_to_id_ [a] (PyInt (Z.of_N id))
  | k_of_base_none a s : Bytes a s -> (forall t, In t vocab -> st_value t <> s) -> Knows base_token_to_id_ [a] PyNone
  | k_of_special a s j : Text a s -> nth_error sps j = Some s -> Knows special_token_to_id_ [a] (int (n + j))
  | k_of_special_none a s : Text a s -> ~ In s sps -> Knows special_token_to_id_ [a] PyNone
  | k_of_token a id t : latest vocab id t -> Bytes a (st_value t) -> Knows token_to_id_ [a] (PyInt (Z.of_N id))
  | k_of_token_special a s j : Bytes a s -> (forall t, In t vocab -> st_value t <> s) -> nth_error sps j = Some s -> Knows token_to_id_ [a] (int (n + j))
  | k_of_token_none a s : Bytes a s -> (forall t, In t vocab -> st_value t <> s) -> ~ In s sps -> Knows token_to_id_ [a] PyNone
  (* the tokens the text begins with, the short ones first *)
  | k_search a s l : Text a s -> StronglySorted lt (map snd l) ->
      (forall id len, In (id, len) l <-> exists t r, latest vocab id t /\ st_value t <> [] /\ s = st_value t ++ r /\ len = List.length (st_value t)) ->
      Knows common_prefix_search_ [a] (PyList (map (fun p => PyInt (Z.of_N (fst p))) l)).
End Knows.
Definition asks (m : method) : bool :=
  match m with
  | vocab_size_ | base_vocab_size_ | special_vocab_size_ | special_tokens_ | is_base_ | is_special_ | id_to_token_ | id_to_base_token_ | id_to_special_token_
  | base_token_to_id_ | special_token_to_id_ | token_to_id_ | common_prefix_search_ => true
  | _ => false
  end.
