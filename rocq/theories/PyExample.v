(** bindings/python/example.py: the example of the Python class, with its assertions.

    What is printed is left out, but not the calls that make it.  An exception ends the script: of it only the line is kept. *)
From Coq.Strings Require Import String.
From Verif Require Import Base F64 Utf8 SpecUtf8 SpecJson Trie Model Processor Tokenizer Serde Regex Py PyKw.
Set Implicit Arguments.
Local Open Scope list_scope.

Inductive outcome := Finished (w : world) | Failed (line : nat) | Hung.

(** A literal. *)
Definition lit (s : string) : py := of_str (B s).
(** [==].  Simplified: for None, int, str and list, which are what the script compares. *)
Fixpoint py_eqb (a b : py) : bool :=
  match a, b with
  | PyNone, PyNone => true
  | PyInt x, PyInt y => (x =? y)%Z
  | PyStr s, PyStr s' => if list_eq_dec N.eq_dec s s' then true else false
  | PyList l, PyList l' =>
      (fix all (l l' : list py) : bool :=
         match l, l' with
         | [], [] => true
         | x :: r, y :: r' => py_eqb x y && all r r'
         | _, _ => false
         end) l l'
  | _, _ => false
  end.
(** [ids[0]] and [ids[-1]]; [None]: an exception. *)
Definition first_item (v : py) : option py := match v with PyList l => hd_error l | _ => None end.
Definition last_item (v : py) : option py := match v with PyList l => hd_error (rev l) | _ => None end.
(** [a - n]. *)
Definition minus (v : py) (n : Z) : py := match v with PyInt z => PyInt (z - n) | _ => PyOther 0 end.
Definition is_none (v : py) : bool := match v with PyNone => true | _ => false end.

(** example.py:31 [special_tokens]. *)
Definition four : list string := ["<s>"; "</s>"; "<pad>"; "<unk>"]%string.

Section Example.
  Variable normalize : unicode_form -> bytes -> bytes.
  Variable fuel : nat.
  (** The random numbers and the schedule of the call in a line. *)
  Variable rnds : nat -> nat -> nat -> nat -> f64.
  Variable scheds : nat -> nat -> list nat.
  Variable fmt_num : f64 -> bytes.
  Variable num_val : bytes -> option f64.
  Variable write_to : files -> bytes -> bytes -> bool * option bytes.

  (** A call in a line, and what follows. *)
  Definition ask (line : nat) (w : world) (m : method) (pos : list py) (kw : list (bytes * py)) (k : py -> world -> outcome) : outcome :=
    match call_kw normalize fuel (rnds line) (scheds line) fmt_num num_val write_to w m pos kw with
    | (Return v, w') => k v w'
    | (Raise _, _) => Failed line
    | (Hang, _) => Hung
    end.
  Definition check (line : nat) (b : bool) (k : outcome) : outcome := if b then k else Failed line.

  (** [[tokenizer.id_to_token(id).decode() for id in ids]] (9, 13) and the same without [.decode()] (73): [bytes.decode] wants UTF-8. *)
  Fixpoint show (line : nat) (decode : bool) (w : world) (ids : list py) (k : world -> outcome) : outcome :=
    match ids with
    | [] => k w
    | id :: ids' => ask line w id_to_token_ [id] [] (fun v w' =>
        check line (if decode then match v with PyBytes s => utf8_ok s | _ => false end else true) (show line decode w' ids' k))
    end.
  Definition show_all (line : nat) (decode : bool) (w : world) (v : py) (k : world -> outcome) : outcome :=
    match v with PyList ids => show line decode w ids k | _ => Failed line end.

  (** 5-76 *)
  Definition example_from (w : world) : outcome :=
    let sentence := lit "Hello, world!" in
    ask 8 w encode_ordinary_ [sentence; PyFloat f0] [] (fun ids w =>
    show_all 9 true w ids (fun w =>
    ask 12 w encode_ [sentence; PyFloat fhalf] [] (fun ids w =>
    show_all 13 true w ids (fun w =>
    ask 16 w decode_ [ids] [(B "include_special_tokens", PyBool false)] (fun _ w =>
    ask 20 w base_token_to_id_ [PyBytes (B "Hello")] [] (fun id w =>
    check 21 (negb (is_none id)) (
    ask 24 w id_to_base_token_ [id] [] (fun _ w =>
    ask 27 w vocab_size_ [] [] (fun vocab_size w =>
    ask 32 w add_special_tokens_ [PyList (map lit four)] [] (fun _ w =>
    ask 33 w special_tokens_ [] [] (fun _ w =>
    ask 35 w special_token_to_id_ [lit "<s>"] [] (fun sid w =>
    check 36 (negb (is_none sid)) (
    let sentence := lit "<s>Hello, world!</s>" in
    ask 40 w encode_ [sentence; PyFloat f0] [] (fun ids w =>
    match first_item ids, last_item ids with
    | Some first, Some last =>
    check 41 (py_eqb first sid) (
    ask 41 w special_token_to_id_ [lit "</s>"] [] (fun eid w =>
    check 41 (py_eqb last eid) (
    ask 44 w encode_ordinary_ [sentence; PyFloat f0] [] (fun ids w =>
    match first_item ids, last_item ids with
    | Some first, Some last =>
    check 45 (negb (py_eqb first sid)) (
    ask 45 w special_token_to_id_ [lit "</s>"] [] (fun eid w =>
    check 45 (negb (py_eqb last eid)) (
    ask 48 w vocab_size_ [] [] (fun new_vocab_size w =>
    check 49 (py_eqb vocab_size (minus new_vocab_size (Z.of_nat (List.length four)))) (
    ask 52 w id_to_special_token_ [sid] [] (fun _ w =>
    let sentences := PyList [lit "<s>Hello, world!</s>"; lit "<s>Hello, tokengeex!</s>"] in
    ask 57 w encode_batch_ [sentences; PyFloat f0] [] (fun ids w =>
    ask 60 w decode_batch_ [ids] [(B "include_special_tokens", PyBool true)] (fun decoded w =>
    check 61 (py_eqb decoded sentences) (
    ask 64 w decode_batch_ [ids] [(B "include_special_tokens", PyBool false)] (fun decoded w =>
    check 65 (py_eqb decoded (PyList [lit "Hello, world!"; lit "Hello, tokengeex!"])) (
    ask 68 w encode_ordinary_batch_ [sentences; PyFloat f0] [] (fun _ w =>
    ask 72 w common_prefix_search_ [lit "self.dropout"] [] (fun suffixes w =>
    show_all 73 false w suffixes (fun w =>
    ask 76 w save_ [lit "/dev/null"] [] (fun _ w =>
    Finished w)))))))))))))))
    | _, _ => Failed 45
    end))))
    | _, _ => Failed 41
    end)))))))))))))).

  (** example.py:3 *)
  Definition example (fs : files) : outcome :=
    match from_file_kw num_val fs [lit "./hub/vocab/v2/exact-32k-merged.json"] [] with
    | Return t => example_from (World t fs)
    | Raise _ => Failed 3
    | Hang => Hung
    end.
End Example.
