(** bindings/python/src/lib.rs: the Python class Tokenizer.

    The conversions of arguments and results are those of pyo3 0.19 (not in /repo).  A call gives all its arguments by position
    (for keywords see PyKw.v).  Simplified: the classes of Python other than the ones below are one constructor that converts to nothing (so subclasses,
    bytearray, range, numpy and objects with [__index__] or [__float__] of their own are left out); of the text of an exception
    only that of the errors of the tokenizer is modelled.  The GIL is held during a call, so calls come one after the other. *)
From Coq.Strings Require Import String.
From Coq Require Import DecimalString.
From Verif Require Import Base F64 Utf8 SpecUtf8 SpecJson Trie Model Processor Tokenizer Json JsonWrite Serde Regex.
Set Implicit Arguments.
Local Open Scope list_scope.

(** Values of Python.  A [str] is a sequence of code points, with or without surrogates. *)
Inductive py :=
| PyNone | PyBool (b : bool) | PyInt (z : Z) | PyFloat (x : f64) | PyStr (s : list N) | PyBytes (s : bytes)
| PyList (l : list py) | PyTuple (l : list py) | PyOther (n : nat).

(** The exceptions.  [PanicException] is what pyo3 makes of a panic; [PyException] is the one of lines 203 and 219. *)
Inductive exc := TypeError | OverflowError | UnicodeEncodeError | TokenGeeXError (text : option bytes) | PyException | PanicException.
Inductive answer (T : Type) := Return (v : T) | Raise (e : exc) | Hang.
Arguments Raise {T}. Arguments Hang {T}.
Definition abind {A T} (r : answer A) (k : A -> answer T) : answer T :=
  match r with Return a => k a | Raise e => Raise e | Hang => Hang end.
Notation "x <~ r ;; k" := (abind r (fun x => k)) (at level 61, r at next level, right associativity).

(** ** pyo3: [FromPyObject] *)
(** [&str], [String]: PyUnicode_AsUTF8AndSize. *)
Definition get_str (v : py) : answer bytes :=
  match v with PyStr s => if forallb is_scalar s then Return (encode_string s) else Raise UnicodeEncodeError | _ => Raise TypeError end.
(** Integers that fit; a [bool] is an [int]. *)
Definition get_int (limit : Z) (v : py) : answer N :=
  match v with
  | PyInt z => if (0 <=? z)%Z && (z <? limit)%Z then Return (Z.to_N z) else Raise OverflowError
  | PyBool b => Return (if b then 1 else 0)%N
  | _ => Raise TypeError
  end.
Definition get_u32 : py -> answer N := get_int (2 ^ 32).
Definition get_u8 (v : py) : answer byte := n <~ get_int 256 v ;; Return (byte_of_N n).
(** [f64]: PyFloat_AsDouble. *)
Definition get_f64 (v : py) : answer f64 :=
  match v with
  | PyFloat x => Return x
  | PyInt z => if f_is_finite (f64_of_Z z) then Return (f64_of_Z z) else Raise OverflowError
  | PyBool b => Return (if b then f1 else f0)
  | _ => Raise TypeError
  end.
Definition get_bool (v : py) : answer bool := match v with PyBool b => Return b | _ => Raise TypeError end.
(** [Vec<T>]: any sequence but a [str]; the items of a [bytes] are numbers. *)
Fixpoint get_all {T} (get : py -> answer T) (l : list py) : answer (list T) :=
  match l with
  | [] => Return []
  | v :: l' => x <~ get v ;; xs <~ get_all get l' ;; Return (x :: xs)
  end.
Definition items (v : py) : answer (list py) :=
  match v with PyList l | PyTuple l => Return l | PyBytes s => Return (map (fun b => PyInt (Z.of_N (bN b))) s) | _ => Raise TypeError end.
Definition get_vec {T} (get : py -> answer T) (v : py) : answer (list T) := l <~ items v ;; get_all get l.

(** ** pyo3: [IntoPy] *)
Definition of_id (id : N) : py := PyInt (Z.of_N id).
Definition of_ids (ids : list N) : py := PyList (map of_id ids).
Definition of_size (n : nat) : py := PyInt (Z.of_nat n).
Definition of_str (s : bytes) : py := PyStr (chars s).
Definition of_option {T} (f : T -> py) (o : option T) : py := match o with Some x => f x | None => PyNone end.

(** src/lib.rs:238-249 [Display for Error].  The texts of the errors of the operating system and of serde_json are not modelled. *)
Definition decimal (n : N) : bytes := B (NilZero.string_of_uint (N.to_uint n)).
Definition error_text (e : error) : option bytes :=
  match e with
  | IO | SerdeJSON => None
  | NoPath pos len => Some (B "no path to position " ++ decimal (N.of_nat pos) ++ B "/" ++ decimal (N.of_nat len))
  | TokenIdOutOfBounds id => Some (B "token id " ++ decimal id ++ B " is out of bounds")
  end.
(** bindings/python/src/lib.rs:27-37. *)
Definition raise_err {T} (r : res T) : answer T :=
  match r with
  | Ok v => Return v
  | Err e => Raise (TokenGeeXError (error_text e))
  | Panic => Raise PanicException
  | Diverge => Hang
  end.

Inductive method :=
| encode_ | encode_ordinary_ | encode_batch_ | encode_ordinary_batch_ | decode_ | decode_batch_
| token_to_id_ | base_token_to_id_ | special_token_to_id_ | id_to_token_ | id_to_base_token_ | id_to_special_token_
| is_special_ | is_base_ | add_special_tokens_ | special_tokens_ | vocab_size_ | base_vocab_size_ | special_vocab_size_
| save_ | common_prefix_search_ | to_string_ | getstate_ | setstate_.

(** [serde_json::from_slice] differs from [from_str] only in that it checks the encoding of what it reads: every string, and
    outside of strings no byte above 127 is accepted.  (The unknown members of a processor are read before they are ignored,
    since the enum is untagged.) *)
Definition from_slice (num_val : bytes -> option f64) (s : bytes) : res tokenizer := if utf8_ok s then from_str num_val s else Err SerdeJSON.

(** The files; whether and what an attempt to write a file changes is up to the operating system. *)
Definition files := bytes -> option bytes.
Record world := World { w_tok : tokenizer; w_files : files }.

Section Py.
  Variable normalize : unicode_form -> bytes -> bytes.
  Variable fuel : nat.
  (** The random numbers of a text of a batch (a call that is not for a batch has one text), and the schedule of a batch. *)
  Variable rnd : nat -> nat -> nat -> f64.
  Variable sched : nat -> list nat.
  Variable fmt_num : f64 -> bytes.
  Variable num_val : bytes -> option f64.
  (** What writing the contents to the path answers (is it [Ok]?), and the file it leaves. *)
  Variable write_to : files -> bytes -> bytes -> bool * option bytes.

  (** What a method without effects answers. *)
  Definition read (t : tokenizer) (m : method) (args : list py) : answer py :=
    match m, args with
    (* bindings/python/src/lib.rs:41-43 *)
    | encode_, [a; b] => text <~ get_str a ;; dropout <~ get_f64 b ;; ids <~ raise_err (tok_encode normalize fuel t (rnd 0) text dropout) ;; Return (of_ids ids)
    (* 45-49 *)
    | encode_ordinary_, [a; b] => text <~ get_str a ;; dropout <~ get_f64 b ;; ids <~ raise_err (encode_ordinary normalize t (rnd 0 0) text dropout) ;; Return (of_ids ids)
    (* 51-59 *)
    | encode_batch_, [a; b] =>
        texts <~ get_vec get_str a ;; dropout <~ get_f64 b ;;
        idss <~ raise_err (encode_batch normalize fuel t rnd texts dropout (sched (List.length texts))) ;; Return (PyList (map of_ids idss))
    (* 61-69 *)
    | encode_ordinary_batch_, [a; b] =>
        texts <~ get_vec get_str a ;; dropout <~ get_f64 b ;;
        idss <~ raise_err (encode_ordinary_batch normalize t (fun i => rnd i 0) texts dropout (sched (List.length texts))) ;; Return (PyList (map of_ids idss))
    (* 71-79 *)
    | decode_, [a; b] => ids <~ get_vec get_u32 a ;; incl <~ get_bool b ;; text <~ raise_err (tok_decode t ids incl) ;; Return (of_str text)
    (* 81-89 *)
    | decode_batch_, [a; b] =>
        idss <~ get_vec (get_vec get_u32) a ;; incl <~ get_bool b ;;
        texts <~ raise_err (decode_batch t idss incl (sched (List.length idss))) ;; Return (PyList (map of_str texts))
    (* 91-101 *)
    | token_to_id_, [a] => token <~ get_vec get_u8 a ;; Return (of_option of_id (tok_token_to_id t token))
    | base_token_to_id_, [a] => token <~ get_vec get_u8 a ;; Return (of_option of_id (base_token_to_id t token))
    | special_token_to_id_, [a] => token <~ get_str a ;; Return (of_option of_id (special_token_to_id t token))
    (* 103-121 *)
    | id_to_token_, [a] => id <~ get_u32 a ;; Return (of_option PyBytes (tok_id_to_token t id))
    | id_to_base_token_, [a] => id <~ get_u32 a ;; Return (of_option (fun tk => PyTuple [PyBytes (st_value tk); PyFloat (st_score tk)]) (id_to_base_token t id))
    | id_to_special_token_, [a] => id <~ get_u32 a ;; Return (of_option of_str (id_to_special_token t id))
    (* 123-129 *)
    | is_special_, [a] => id <~ get_u32 a ;; Return (PyBool (is_special t id))
    | is_base_, [a] => id <~ get_u32 a ;; Return (PyBool (is_base t id))
    (* 135-149 *)
    | special_tokens_, [] => Return (PyList (map of_str (special_tokens t)))
    | vocab_size_, [] => Return (of_size (tok_vocab_size t))
    | base_vocab_size_, [] => Return (of_size (base_vocab_size t))
    | special_vocab_size_, [] => Return (of_size (special_vocab_size t))
    (* 164-175 *)
    | common_prefix_search_, [a] => text <~ get_str a ;; Return (of_ids (map fst (common_prefix_search (tk_model t) text)))
    (* 192-194 *)
    | to_string_, [] => Return (of_str (to_string fmt_num t))
    (* 198-206.  The serialisation of a tokenizer does not fail. *)
    | getstate_, [] => Return (PyBytes (to_string fmt_num t))
    | _, _ => Raise TypeError
    end.

  (** A call of a method: the answer, and what it leaves. *)
  Definition call (w : world) (m : method) (args : list py) : answer py * world :=
    let t := w_tok w in
    match m, args with
    (* 131-133 *)
    | add_special_tokens_, [a] =>
        match get_vec get_str a with
        | Return tokens => (Return PyNone, World (add_special_tokens t tokens) (w_files w))
        | Raise e => (Raise e, w)
        | Hang => (Hang, w)
        end
    (* 151-162: the exception is created, set, fetched and dropped *)
    | save_, [a] =>
        match get_str a with
        | Return path =>
            let '(ok, file) := write_to (w_files w) path (save_contents fmt_num t) in
            (Return PyNone, World t (fun p => if bytes_eqb p path then file else w_files w p))
        | Raise e => (Raise e, w)
        | Hang => (Hang, w)
        end
    (* 210-224: only a [bytes]; [serde_json::from_slice] *)
    | setstate_, [a] =>
        match a with
        | PyBytes s =>
            match from_slice num_val s with
            | Ok t' => (Return PyNone, World t' (w_files w))
            | Err _ => (Raise PyException, w)
            | Panic => (Raise PanicException, w)
            | Diverge => (Hang, w)
            end
        | _ => (Raise TypeError, w)
        end
    | _, _ => (read t m args, w)
    end.

  (** 177-189: the static methods. *)
  Definition py_from_str (args : list py) : answer tokenizer :=
    match args with
    | [a] => json <~ get_str a ;; raise_err (from_str num_val json)
    | _ => Raise TypeError
    end.
  Definition py_from_file (fs : files) (args : list py) : answer tokenizer :=
    match args with
    | [a] => path <~ get_str a ;; raise_err (from_file num_val (fs path))
    | _ => Raise TypeError
    end.

  (** One call after the other. *)
  Fixpoint calls (w : world) (l : list (method * list py)) : list (answer py) * world :=
    match l with
    | [] => ([], w)
    | (m, args) :: l' =>
        let '(a, w1) := call w m args in
        let '(l1, w2) := calls w1 l' in (a :: l1, w2)
    end.

  (** The module pickle: [dumps] keeps the class and what [__getstate__] answers; [loads] calls the constructor of the class
      without arguments, then [__setstate__] of the new object.  The class has no constructor (no #[new] in lines 39-225), so pyo3
      gives it one that raises TypeError. *)
  Definition constructor : answer world := Raise TypeError.
  Definition dumps (w : world) : answer py := read (w_tok w) getstate_ [].
  Definition loads (v : py) : answer world :=
    w <~ constructor ;; let '(a, w') := call w setstate_ [v] in _ <~ a ;; Return w'.
End Py.
