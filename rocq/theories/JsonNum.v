(** How serde_json 1.0.113 (not part of /repo; the dependency of Cargo.toml:31, with its default features, so without
    float_roundtrip) reads the text of a number as an [f64], and how it prints one (with the crate ryu).  The scores of tokens go
    through both: src/lib.rs:109-134 and 136-203.

    Simplifications.  A negative number is read like the positive one and negated at the end: serde_json makes an i64 of an integer
    such as -5 and converts it, which rounds the same way.  Counters of digits (i32) do not overflow.  Ryu's digits are computed
    from its specification (the shortest decimal that is rounded to the number, the closest of these), not with its tables. *)
From Coq Require Import ZArith.
From Verif Require Import Base F64 Utf8 SpecUtf8 SpecJson Json.
Set Implicit Arguments.
Local Open Scope Z_scope.

(** ** Reading *)
Definition digit_val (b : byte) : Z := Z.of_N (bN b) - 0x30.
Definition u64_max : Z := 2 ^ 64 - 1.
Definition i32_min : Z := - 2 ^ 31.
Definition i32_max : Z := 2 ^ 31 - 1.
(** saturating_add, saturating_sub *)
Definition i32_clamp (z : Z) : Z := Z.max i32_min (Z.min i32_max z).

Fixpoint skip_digits (s : bytes) : Z * bytes :=
  match s with
  | b :: s' => if is_digit b then let (n, r) := skip_digits s' in (n + 1, r) else (0, s)
  | [] => (0, [])
  end.
(** parse_integer and parse_long_integer: the significand, the number of digits it leaves out, the rest. *)
Fixpoint int_digits (s : bytes) (sig : Z) : Z * Z * bytes :=
  match s with
  | b :: s' =>
      if is_digit b then
        if u64_max <? sig * 10 + digit_val b then let (n, r) := skip_digits s in (sig, n, r)
        else int_digits s' (sig * 10 + digit_val b)
      else (sig, 0, s)
  | [] => (sig, 0, [])
  end.
(** parse_decimal and parse_decimal_overflow: [e] goes down by one with every digit taken. *)
Fixpoint frac_digits (s : bytes) (sig e : Z) : Z * Z * bytes :=
  match s with
  | b :: s' =>
      if is_digit b then
        if u64_max <? sig * 10 + digit_val b then (sig, e, snd (skip_digits s))
        else frac_digits s' (sig * 10 + digit_val b) (e - 1)
      else (sig, e, s)
  | [] => (sig, e, [])
  end.
(** The digits of an exponent; [None]: too large for an i32. *)
Fixpoint exp_digits (s : bytes) (e : Z) : option Z :=
  match s with
  | b :: s' =>
      if is_digit b then
        if i32_max <? e * 10 + digit_val b then None else exp_digits s' (e * 10 + digit_val b)
      else Some e
  | [] => Some e
  end.

(** The table POW10: 1e0 to 1e308. *)
Definition pow10 (k : Z) : f64 := f64_of_Z (10 ^ k).
(** f64_from_parts, without the sign.  [None]: NumberOutOfRange.  Three rounds are enough (from_parts_spec and
    parts_low in PartsProofs.v). *)
Fixpoint scale (fuel : nat) (f : f64) (e : Z) : option f64 :=
  match fuel with
  | O => None
  | S fuel' =>
      if Z.abs e <=? 308 then
        if 0 <=? e then (let f' := fmul f (pow10 e) in if f_is_infinite f' then None else Some f')
        else Some (fdiv f (pow10 (- e)))
      else if feqb f f0 then Some f
      else if 0 <=? e then None
      else scale fuel' (fdiv f (pow10 308)) (e + 308)
  end.
Definition from_parts (sig e : Z) : option f64 := scale 3 (f64_of_Z sig) e.

(** parse_exponent, after the e; parse_exponent_overflow. *)
Definition read_exp (sig e : Z) (s : bytes) : option f64 :=
  let '(neg, s1) := match s with
                    | b :: s' => if Byte.eqb b "+" then (false, s') else if Byte.eqb b "-" then (true, s') else (false, s)
                    | [] => (false, [])
                    end in
  match exp_digits s1 0 with
  | Some x => from_parts sig (i32_clamp (if neg then e - x else e + x))
  | None => if negb (sig =? 0) && negb neg then None else Some f0
  end.
Definition is_e (b : byte) : bool := Byte.eqb b "e" || Byte.eqb b "E".
(** parse_integer, parse_number and what they call, on the text of a number without its sign. *)
Definition read_abs (s : bytes) : option f64 :=
  let '(sig, n, s1) := int_digits s 0 in
  match s1 with
  | b :: s2 =>
      if Byte.eqb b "." then
        let '(sig', e, s3) := frac_digits s2 sig n in
        match s3 with
        | c :: s4 => if is_e c then read_exp sig' e s4 else from_parts sig' e
        | [] => from_parts sig' e
        end
      else if is_e b then read_exp sig n s2
      else from_parts sig n
  | [] => if n =? 0 then Some (f64_of_Z sig) else from_parts sig n
  end.
(** The text of a number; scan_number (Json.v) has checked its syntax. *)
Definition read_num (tok : bytes) : option f64 :=
  match tok with
  | b :: s => if Byte.eqb b "-" then option_map fneg (read_abs s) else read_abs tok
  | [] => None
  end.

(** ** Printing *)
(** The digits of a positive number. *)
Fixpoint dec_loop (fuel : nat) (n : Z) (acc : bytes) : bytes :=
  match fuel with
  | O => acc
  | S fuel' => if n =? 0 then acc else dec_loop fuel' (n / 10) (byte_of_N (Z.to_N (0x30 + n mod 10)) :: acc)
  end.
Definition dec (n : Z) : bytes := if n =? 0 then ["0"%byte] else dec_loop (Z.to_nat (Z.log2 n + 1)) n [].

(** The fraction [a / b * 10 ^ - e]. *)
Definition times_pow10 (e a b : Z) : Z * Z := if 0 <=? e then (a, b * 10 ^ e) else (a * 10 ^ (- e), b).
(** The fraction [m * 2 ^ e]. *)
Definition fraction (m e : Z) : Z * Z := if 0 <=? e then (m * 2 ^ e, 1) else (m, 2 ^ (- e)).
(** Is [c * 10 ^ k] rounded to [m * 2 ^ e]?  The limits are half way to the numbers next to it, which is closer below a power of
    two; they are rounded to it if [m] is even. *)
Definition rounds_to (m e c k : Z) : bool :=
  let e' := e - 2 in
  let lo := if (m =? 2 ^ 52) && negb (e =? -1074) then 4 * m - 1 else 4 * m - 2 in
  let hi := 4 * m + 2 in
  let '(p, q) := if 0 <=? k then (c * 10 ^ k, 1) else (c, 10 ^ (- k)) in
  let (a, b) := fraction 1 e' in
  (* p / q against lo * a / b and hi * a / b *)
  if Z.even m then (lo * a * q <=? p * b) && (p * b <=? hi * a * q) else (lo * a * q <? p * b) && (p * b <? hi * a * q).
(** The decimal exponent: [10 ^ (n - 1) <= m * 2 ^ e < 10 ^ n]. *)
Fixpoint find_exp (fuel : nat) (a b n : Z) : Z :=
  match fuel with
  | O => n
  | S fuel' =>
      let (p, q) := times_pow10 n a b in
      if q <=? p then find_exp fuel' a b (n + 1)
      else let (p, q) := times_pow10 (n - 1) a b in if p <? q then find_exp fuel' a b (n - 1) else n
  end.
(** A decimal of [n] digits, if there is one that is rounded to the number: the closest one, the even one of two. *)
Definition candidate (m e k : Z) : option Z :=
  let (a, b) := fraction m e in
  let (p, q) := times_pow10 k a b in
  let c := p / q in
  let r := p - c * q in
  let lower := rounds_to m e c k in
  let upper := rounds_to m e (c + 1) k in
  if lower && upper then Some (if (2 * r <? q) || (2 * r =? q) && Z.even c then c else c + 1)
  else if lower then Some c
  else if upper then Some (c + 1)
  else None.
Fixpoint shortest_loop (fuel : nat) (m e kk n : Z) : Z * Z :=
  match fuel with
  | O => (0, 0)
  | S fuel' => match candidate m e (kk - n) with Some c => (c, kk - n) | None => shortest_loop fuel' m e kk (n + 1) end
  end.
(** ryu::d2s::d2d: digits and exponent of [m * 2 ^ e]. *)
Definition shortest (m e : Z) : Z * Z :=
  let (a, b) := fraction m e in
  let '(c, k) := shortest_loop 17 m e (find_exp 700 a b 0) 1 in
  if c =? 10 then (1, k + 1) else (c, k).

(** ryu::pretty::format64 on digits and exponent. *)
Definition print_exp (e : Z) : bytes := if e <? 0 then "-"%byte :: dec (- e) else dec e.
Definition layout (c k : Z) : bytes :=
  let ds := dec c in
  let n := Z.of_nat (List.length ds) in
  let kk := n + k in
  if (0 <=? k) && (kk <=? 16) then ds ++ repeat "0"%byte (Z.to_nat k) ++ B ".0"
  else if (0 <? kk) && (kk <=? 16) then firstn (Z.to_nat kk) ds ++ B "." ++ skipn (Z.to_nat kk) ds
  else if (-5 <? kk) && (kk <=? 0) then B "0." ++ repeat "0"%byte (Z.to_nat (- kk)) ++ ds
  else if n =? 1 then ds ++ B "e" ++ print_exp (kk - 1)
  else firstn 1 ds ++ B "." ++ skipn 1 ds ++ B "e" ++ print_exp (kk - 1).
(** serde_json's write_f64, for finite numbers. *)
Definition print_num (x : f64) : bytes :=
  match x with
  | BinarySingleNaN.B754_finite s m e _ => (if s then B "-" else []) ++ (let (c, k) := shortest (Zpos m) e in layout c k)
  | BinarySingleNaN.B754_zero s => (if s then B "-" else []) ++ B "0.0"
  | _ => B "null"
  end.

(** The score of a token after its file was written and read: src/lib.rs:124 and :165. *)
Definition reread (x : f64) : f64 := match read_num (print_num x) with Some y => y | None => x end.
