(** serde_json (1.0.113; not part of /repo) as far as the (de)serialisers of src/lib.rs, src/processor.rs and
    src/tokenizer.rs use it: the compact and the pretty writer, and the parser for a document of known shape.

    Simplifications.  The parser builds a tree that the deserialisers in Serde.v then read, where serde_json calls the
    deserialiser while parsing; both succeed on the same documents because every deserialiser that succeeds has read the whole
    document, and all errors are the one error [SerdeJSON].  The text of numbers is written and evaluated by
    oracles ([fmt_num], [num_val]; in serde_json, ryu and its own decimal parser). *)
From Verif Require Import Base F64 Utf8 SpecUtf8 SpecJson.
Set Implicit Arguments.

(** ** Writer *)

(** serde_json::ser::format_escaped_str and its ESCAPE table. *)
Definition hex_lower (n : N) : byte := if (n <? 10)%N then byte_of_N (0x30 + n) else byte_of_N (0x61 + (n - 10)).
Definition escape (b : byte) : bytes :=
  match b with
  | x22 => [x5c; x22]
  | x5c => [x5c; x5c]
  | x08 => [x5c; x62]
  | x0c => [x5c; x66]
  | x0a => [x5c; x6e]
  | x0d => [x5c; x72]
  | x09 => [x5c; x74]
  | _ => if (bN b <? 0x20)%N then [x5c; x75; x30; x30; hex_lower (bN b / 16); hex_lower (bN b mod 16)] else [b]
  end.
Definition write_str (s : bytes) : bytes := x22 :: flat_map escape s ++ [x22].

(** Is the written form free of escapes? *)
Definition plain (s : bytes) : bool := forallb (fun b => Nat.eqb (length (escape b)) 1) s.
Definition jstr (s : bytes) : json := JStr (plain s) s.

Fixpoint intercalate (sep : bytes) (l : list bytes) : bytes :=
  match l with
  | [] => []
  | [a] => a
  | a :: l' => a ++ sep ++ intercalate sep l'
  end.

(** CompactFormatter / PrettyFormatter (two spaces per level). *)
Definition newline (pretty : bool) (level : nat) : bytes :=
  if pretty then x0a :: repeat x20 (2 * level) else [].
Definition colon (pretty : bool) : bytes := if pretty then [x3a; x20] else [x3a].
Definition bracket (pretty : bool) (level : nat) (o c : byte) (items : list bytes) : bytes :=
  match items with
  | [] => [o; c]
  | _ => o :: newline pretty (S level) ++ intercalate (x2c :: newline pretty (S level)) items ++ newline pretty level ++ [c]
  end.

Section Number.
  Variable fmt_num : f64 -> bytes.
  Variable num_val : bytes -> option f64.

  (** serde_json::to_string, to_string_pretty ([level] is the current indentation).
      Numbers that are not finite are written as null. *)
  Fixpoint write (pretty : bool) (level : nat) (v : json) : bytes :=
    match v with
    | JNull => B "null"
    | JBool b => B (if b then "true" else "false")
    | JNum x => if f_is_finite x then fmt_num x else B "null"
    | JStr _ s => write_str s
    | JArr l => bracket pretty level x5b x5d (map (write pretty (S level)) l)
    | JObj l => bracket pretty level x7b x7d
                  (map (fun m => match m with (_, k, v) => write_str k ++ colon pretty ++ write pretty (S level) v end) l)
    end.

  (** ** Parser *)

  (** parse_whitespace *)
  Definition is_ws (b : byte) : bool := match b with x20 | x0a | x0d | x09 => true | _ => false end.
  Fixpoint skip_ws (s : bytes) : bytes :=
    match s with
    | b :: s' => if is_ws b then skip_ws s' else s
    | [] => []
    end.

  (** decode_hex_escape *)
  Definition hex_val (b : byte) : option N :=
    if in_range 0x30 0x39 b then Some (bN b - 0x30)%N
    else if in_range 0x61 0x66 b then Some (bN b - 0x61 + 10)%N
    else if in_range 0x41 0x46 b then Some (bN b - 0x41 + 10)%N
    else None.
  Definition hex4 (a b c d : byte) : option N :=
    match hex_val a, hex_val b, hex_val c, hex_val d with
    | Some x, Some y, Some z, Some w => Some (x * 4096 + y * 256 + z * 16 + w)%N
    | _, _, _, _ => None
    end.

  (** parse_escape, the two-character escapes *)
  Definition unescape (c : byte) : option byte :=
    match c with
    | x22 => Some x22 | x5c => Some x5c | x2f => Some x2f | x62 => Some x08
    | x66 => Some x0c | x6e => Some x0a | x72 => Some x0d | x74 => Some x09
    | _ => None
    end.

  (** parse_str after the opening quote: (free of escapes, text, rest). *)
  Fixpoint parse_str (s : bytes) : option (bool * bytes * bytes) :=
    match s with
    | [] => None
    | b :: r =>
        if Byte.eqb b x22 then Some (true, [], r)
        else if Byte.eqb b x5c then
          match r with
          | [] => None
          | c :: r1 =>
              if Byte.eqb c x75 then
                match r1 with
                | h0 :: h1 :: h2 :: h3 :: r2 =>
                    match hex4 h0 h1 h2 h3 with
                    | None => None
                    | Some n =>
                        if ((0xDC00 <=? n) && (n <=? 0xDFFF))%N then None
                        else if ((n <? 0xD800) || (0xDBFF <? n))%N then
                          match parse_str r2 with
                          | Some (_, t, rest) => Some (false, encode_char n ++ t, rest)
                          | None => None
                          end
                        else
                          match r2 with
                          | b2 :: c2 :: g0 :: g1 :: g2 :: g3 :: r3 =>
                              if Byte.eqb b2 x5c && Byte.eqb c2 x75 then
                                match hex4 g0 g1 g2 g3 with
                                | None => None
                                | Some n2 =>
                                    if ((n2 <? 0xDC00) || (0xDFFF <? n2))%N then None
                                    else
                                      match parse_str r3 with
                                      | Some (_, t, rest) =>
                                          Some (false, encode_char (0x10000 + (n - 0xD800) * 0x400 + (n2 - 0xDC00)) ++ t, rest)
                                      | None => None
                                      end
                                end
                              else None
                          | _ => None
                          end
                    end
                | _ => None
                end
              else
                match unescape c with
                | None => None
                | Some b' =>
                    match parse_str r1 with
                    | Some (_, t, rest) => Some (false, b' :: t, rest)
                    | None => None
                    end
                end
          end
        else if (bN b <? 0x20)%N then None
        else
          match parse_str r with
          | Some (p, t, rest) => Some (p, b :: t, rest)
          | None => None
          end
    end.

  (** parse_integer, parse_decimal, parse_exponent: the text of a number, and the rest *)
  Definition is_digit (b : byte) : bool := in_range 0x30 0x39 b.
  Fixpoint span_digits (s : bytes) : bytes * bytes :=
    match s with
    | b :: s' => if is_digit b then let (ds, r) := span_digits s' in (b :: ds, r) else ([], s)
    | [] => ([], [])
    end.
  Definition scan_int (s : bytes) : option (bytes * bytes) :=
    match s with
    | b :: r =>
        if Byte.eqb b x30 then
          match r with
          | c :: _ => if is_digit c then None else Some ([x30], r)
          | [] => Some ([x30], r)
          end
        else if is_digit b then let (ds, r') := span_digits r in Some (b :: ds, r')
        else None
    | [] => None
    end.
  Definition scan_frac (s : bytes) : option (bytes * bytes) :=
    match s with
    | b :: r =>
        if Byte.eqb b x2e then
          let (ds, r') := span_digits r in
          match ds with [] => None | _ => Some (x2e :: ds, r') end
        else Some ([], s)
    | [] => Some ([], [])
    end.
  Definition scan_exp (s : bytes) : option (bytes * bytes) :=
    match s with
    | b :: r =>
        if Byte.eqb b x65 || Byte.eqb b x45 then
          let (sg, r1) := match r with
                          | c :: r1 => if Byte.eqb c x2b || Byte.eqb c x2d then ([c], r1) else ([], r)
                          | [] => ([], [])
                          end in
          let (ds, r') := span_digits r1 in
          match ds with [] => None | _ => Some (b :: sg ++ ds, r') end
        else Some ([], s)
    | [] => Some ([], [])
    end.
  Definition scan_number (s : bytes) : option (bytes * bytes) :=
    let (sg, s1) := match s with
                    | b :: r => if Byte.eqb b x2d then ([x2d], r) else ([], s)
                    | [] => ([], [])
                    end in
    match scan_int s1 with
    | None => None
    | Some (ip, s2) =>
        match scan_frac s2 with
        | None => None
        | Some (fp, s3) =>
            match scan_exp s3 with
            | None => None
            | Some (ep, s4) => Some (sg ++ ip ++ fp ++ ep, s4)
            end
        end
    end.

  (** SeqAccess / MapAccess: the items between brackets, up to and including the closing one. *)
  Fixpoint parse_items {A} (item : bytes -> option (A * bytes)) (close : byte) (fuel : nat) (first : bool) (s : bytes)
      : option (list A * bytes) :=
    match fuel with
    | 0 => None
    | S fuel' =>
        match skip_ws s with
        | [] => None
        | b :: r =>
            if Byte.eqb b close then Some ([], r)
            else
              match (if first then b :: r else if Byte.eqb b x2c then skip_ws r else []) with
              | [] => None
              | c :: r1 =>
                  if Byte.eqb c close then None
                  else
                    match item (c :: r1) with
                    | None => None
                    | Some (a, r2) =>
                        match parse_items item close fuel' false r2 with
                        | None => None
                        | Some (l, rest) => Some (a :: l, rest)
                        end
                    end
              end
        end
    end.

  (** One key-value pair of an object, given a parser for the value. *)
  Definition parse_member (pv : bytes -> option (json * bytes)) (s : bytes) : option (bool * bytes * json * bytes) :=
    match s with
    | b :: r =>
        if Byte.eqb b x22 then
          match parse_str r with
          | None => None
          | Some (p, k, r1) =>
              match skip_ws r1 with
              | c :: r2 =>
                  if Byte.eqb c x3a then
                    match pv r2 with
                    | None => None
                    | Some (v, r3) => Some ((p, k, v), r3)
                    end
                  else None
              | [] => None
              end
          end
        else None
    | [] => None
    end.

  (** A value.  [depth] is the number of further levels allowed (serde_json's limit is 128,
      and the level that reaches it fails). *)
  Fixpoint parse_value (depth : nat) (s : bytes) : option (json * bytes) :=
    match skip_ws s with
    | [] => None
    | b :: r =>
        if Byte.eqb b x22 then
          match parse_str r with Some (p, t, rest) => Some (JStr p t, rest) | None => None end
        else if Byte.eqb b x5b then
          match depth with
          | 0 => None
          | S depth' =>
              match parse_items (parse_value depth') x5d (S (length r)) true r with
              | Some (l, rest) => Some (JArr l, rest)
              | None => None
              end
          end
        else if Byte.eqb b x7b then
          match depth with
          | 0 => None
          | S depth' =>
              match parse_items (parse_member (parse_value depth')) x7d (S (length r)) true r with
              | Some (l, rest) => Some (JObj l, rest)
              | None => None
              end
          end
        else if starts_with (b :: r) (B "null") then Some (JNull, skipn 4 (b :: r))
        else if starts_with (b :: r) (B "true") then Some (JBool true, skipn 4 (b :: r))
        else if starts_with (b :: r) (B "false") then Some (JBool false, skipn 5 (b :: r))
        else
          match scan_number (b :: r) with
          | None => None
          | Some (tok, rest) =>
              match num_val tok with
              | None => None
              | Some x => Some (JNum x, rest)
              end
          end
    end.

  (** serde_json::from_str: one value, then nothing but white space. *)
  Definition parse_document (s : bytes) : option json :=
    match parse_value 127 s with
    | Some (v, rest) => match skip_ws rest with [] => Some v | _ => None end
    | None => None
    end.
End Number.
