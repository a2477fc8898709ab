(** Keyword arguments, and the signatures that the stub promises. *)
From Coq Require Import Permutation.
From Coq.Strings Require Import String.
From Verif Require Import Base SpecJson Py.
Set Implicit Arguments.
Local Open Scope list_scope.

(** The arguments of a call: the positional ones, then what the keywords, in any order, give to the other parameters. *)
Definition Binds (names : list bytes) (pos : list py) (kw : list (bytes * py)) (args : list py) : Prop :=
  exists given, args = pos ++ given /\ List.length args = List.length names /\ Permutation kw (combine (skipn (List.length pos) names) given).

(** bindings/python/tokengeex.pyi: the methods of the stub and their parameters. *)
Definition stub : list (method * list bytes) := [
  (* 11, 26, 41, 56-58 *)
  (encode_, [B "text"; B "dropout"]); (encode_ordinary_, [B "text"; B "dropout"]);
  (encode_batch_, [B "texts"; B "dropout"]); (encode_ordinary_batch_, [B "texts"; B "dropout"]);
  (* 73, 88-90 *)
  (decode_, [B "ids"; B "include_special_tokens"]); (decode_batch_, [B "ids"; B "include_special_tokens"]);
  (* 105, 114, 123 *)
  (token_to_id_, [B "token"]); (base_token_to_id_, [B "token"]); (special_token_to_id_, [B "token"]);
  (* 132, 141, 150 *)
  (id_to_token_, [B "id"]); (id_to_base_token_, [B "id"]); (id_to_special_token_, [B "id"]);
  (* 159, 168, 175, 183, 190, 197 *)
  (add_special_tokens_, [B "tokens"]); (special_tokens_, []); (is_special_, [B "id"]); (vocab_size_, []); (base_vocab_size_, []); (special_vocab_size_, []);
  (* 204, 213 *)
  (save_, [B "filepath"]); (common_prefix_search_, [B "text"])].
(** 226, 242 *)
Definition stub_from_file : list bytes := [B "filepath"].
Definition stub_from_str : list bytes := [B "s"].
