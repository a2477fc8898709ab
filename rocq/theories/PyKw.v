(** bindings/python/src/lib.rs: calls of the Python class with keyword arguments.

    pyo3 0.19 (not in /repo) binds the arguments of a call as [FunctionDescription::extract_arguments]: the positional ones come first,
    every keyword has to name a parameter that has no value yet, and in the end none may lack one; all these errors are a TypeError.
    None of the functions has a #[pyo3(signature)], and none a parameter of type [Option], so that every parameter is required, and may be
    given by position or by name.  The receiver and the [Python] token are no parameters. *)
From Coq.Strings Require Import String.
From Verif Require Import Base F64 SpecJson Model Processor Tokenizer Serde Py.
Set Implicit Arguments.
Local Open Scope list_scope.

(** The names of the parameters. *)
Definition parameters (m : method) : list bytes :=
  match m with
  (* bindings/python/src/lib.rs:41, 45 *)
  | encode_ | encode_ordinary_ => [B "text"; B "dropout"]
  (* 51-55, 61-65 *)
  | encode_batch_ | encode_ordinary_batch_ => [B "texts"; B "dropout"]
  (* 71-75, 81-85 *)
  | decode_ | decode_batch_ => [B "ids"; B "include_special_tokens"]
  (* 91, 95, 99 *)
  | token_to_id_ | base_token_to_id_ | special_token_to_id_ => [B "token"]
  (* 103, 109, 119, 123, 127 *)
  | id_to_token_ | id_to_base_token_ | id_to_special_token_ | is_special_ | is_base_ => [B "id"]
  (* 131 *)
  | add_special_tokens_ => [B "tokens"]
  (* 135, 139, 143, 147, 192, 198 *)
  | special_tokens_ | vocab_size_ | base_vocab_size_ | special_vocab_size_ | to_string_ | getstate_ => []
  (* 151 *)
  | save_ => [B "filename"]
  (* 164 *)
  | common_prefix_search_ => [B "text"]
  (* 210 *)
  | setstate_ => [B "state"]
  end.
(** 178, 185. *)
Definition from_str_parameters : list bytes := [B "json"].
Definition from_file_parameters : list bytes := [B "filepath"].

(** The values of the parameters so far. *)
Definition slots := list (option py).
(** The positional arguments; [None]: too many. *)
Fixpoint place (names : list bytes) (pos : list py) : option slots :=
  match names, pos with
  | names, [] => Some (map (fun _ => None) names)
  | [], _ :: _ => None
  | _ :: names', v :: pos' => option_map (cons (Some v)) (place names' pos')
  end.
(** A keyword argument; [None]: no such parameter, or it has a value. *)
Fixpoint put (names : list bytes) (s : slots) (k : bytes) (v : py) : option slots :=
  match names, s with
  | name :: names', slot :: s' =>
      if bytes_eqb name k then match slot with Some _ => None | None => Some (Some v :: s') end
      else option_map (cons slot) (put names' s' k v)
  | _, _ => None
  end.
Fixpoint put_all (names : list bytes) (s : slots) (kw : list (bytes * py)) : option slots :=
  match kw with
  | [] => Some s
  | (k, v) :: kw' => match put names s k v with Some s' => put_all names s' kw' | None => None end
  end.
(** [None]: an argument is missing. *)
Fixpoint filled (s : slots) : option (list py) :=
  match s with
  | [] => Some []
  | Some v :: s' => option_map (cons v) (filled s')
  | None :: _ => None
  end.
Definition bind_arguments (names : list bytes) (pos : list py) (kw : list (bytes * py)) : option (list py) :=
  match place names pos with
  | Some s => match put_all names s kw with Some s' => filled s' | None => None end
  | None => None
  end.

Section Kw.
  Variable normalize : unicode_form -> bytes -> bytes.
  Variable fuel : nat.
  Variable rnd : nat -> nat -> nat -> f64.
  Variable sched : nat -> list nat.
  Variable fmt_num : f64 -> bytes.
  Variable num_val : bytes -> option f64.
  Variable write_to : files -> bytes -> bytes -> bool * option bytes.

  (** A call with positional and keyword arguments. *)
  Definition call_kw (w : world) (m : method) (pos : list py) (kw : list (bytes * py)) : answer py * world :=
    match bind_arguments (parameters m) pos kw with
    | Some args => call normalize fuel rnd sched fmt_num num_val write_to w m args
    | None => (Raise TypeError, w)
    end.
  Definition from_str_kw (pos : list py) (kw : list (bytes * py)) : answer tokenizer :=
    match bind_arguments from_str_parameters pos kw with Some args => py_from_str num_val args | None => Raise TypeError end.
  Definition from_file_kw (fs : files) (pos : list py) (kw : list (bytes * py)) : answer tokenizer :=
    match bind_arguments from_file_parameters pos kw with Some args => py_from_file num_val fs args | None => Raise TypeError end.
End Kw.
