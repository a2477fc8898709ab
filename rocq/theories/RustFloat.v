(** [f64::from_str] of the standard library of Rust (core::num::dec2flt; not part of /repo): how the program reads the
    numbers of the command line.  src/cli.rs:253 calls it for the proportions of sources, the parser of the options
    (src/cli.rs:58, 81, 83, 100, 128; xflags::rt::Parser::next_value_from_str) for --insert-probability, --dropout,
    --shrink-factor, --min-score and --scale-factor.

    Simplifications.  The digits make a [Z] instead of a u64 that is made anew from the text if it is too small for them.  The
    number is computed from the documentation of dec2flt (the nearest one, the even one of two), not with the methods of Clinger
    and of Eisel and Lemire; that the exponent stops to grow at 0x10000 is kept.  There is one NaN. *)
From Coq Require Import ZArith.
From Flocq Require Import IEEE754.BinarySingleNaN.
From Coq.Strings Require Import String.
From Verif Require Import Base F64 Utf8 SpecUtf8 SpecJson Json JsonNum.
Set Implicit Arguments.
Local Open Scope Z_scope.

(** parse_digits: what is before the first byte that is no digit, and the rest. *)
Fixpoint span_digits (s : bytes) : bytes * bytes :=
  match s with
  | b :: s' => if is_digit b then let (ds, r) := span_digits s' in (b :: ds, r) else ([], s)
  | [] => ([], [])
  end.
(** try_parse_digits *)
Definition mantissa (ds : bytes) : Z := fold_left (fun n b => n * 10 + digit_val b) ds 0.
(** parse_scientific: "saturate well before overflow". *)
Definition exponent (ds : bytes) : Z := fold_left (fun e b => if e <? 0x10000 then 10 * e + digit_val b else e) ds 0.
Definition parse_scientific (s : bytes) : option (Z * bytes) :=
  let '(negative, s1) := match s with
                         | b :: s' => if Byte.eqb b "-" then (true, s') else if Byte.eqb b "+" then (false, s') else (false, s)
                         | [] => (false, [])
                         end in
  let (ds, rest) := span_digits s1 in
  match ds with
  | [] => None
  | _ => Some (if negative then - exponent ds else exponent ds, rest)
  end.
(** The digits after the point, if there is one. *)
Definition after_point (s : bytes) : bytes * bytes :=
  match s with
  | b :: s' => if Byte.eqb b "." then span_digits s' else ([], s)
  | [] => ([], [])
  end.
(** parse_partial_number and parse_number: the number is [m * 10 ^ e]. *)
Definition parse_number (s : bytes) : option (Z * Z) :=
  let (ip, s1) := span_digits s in
  let (fp, s2) := after_point s1 in
  match ip ++ fp with
  | [] => None
  | ds =>
      match s2 with
      | [] => Some (mantissa ds, - Z.of_nat (List.length fp))
      | b :: s3 =>
          if is_e b then
            match parse_scientific s3 with
            | Some (e, []) => Some (mantissa ds, - Z.of_nat (List.length fp) + e)
            | _ => None
            end
          else None
      end
  end.
(** parse_inf_nan, without the sign; the bytes are compared without the bit 0x20. *)
Definition masked (b : byte) : N := N.land (bN b) 0xDF.
Definition is_word (s : bytes) (w : string) : bool :=
  (List.length s =? List.length (B w))%nat && forallb (fun p => (masked (fst p) =? bN (snd p))%N) (combine s (B w)).
Definition parse_inf_nan (s : bytes) : option f64 :=
  if is_word s "INF" || is_word s "INFINITY" then Some (B754_infinity false)
  else if is_word s "NAN" then Some fnan
  else None.

(** p / q, correctly rounded. *)
Definition ratio (negative : bool) (p q : positive) : f64 :=
  SF2B _ (proj1 (@Bdiv_correct_aux prec64 emax64 _ _ mode_NE negative p 0 false q 0)).
(** compute_float and parse_long_mantissa. *)
Definition to_f64 (negative : bool) (m e : Z) : f64 :=
  match m with
  | Zpos p => if 0 <=? e then ratio negative (p * Z.to_pos (10 ^ e)) 1 else ratio negative p (Z.to_pos (10 ^ - e))
  | _ => B754_zero negative
  end.
(** dec2flt *)
Definition parse_f64 (s : bytes) : option f64 :=
  match s with
  | [] => None
  | b :: s' =>
      let negative := Byte.eqb b "-" in
      let s1 := if negative || Byte.eqb b "+" then s' else s in
      match s1 with
      | [] => None
      | _ =>
          match parse_number s1 with
          | Some (m, e) => Some (to_f64 negative m e)
          | None => option_map (if negative then fneg else fun x => x) (parse_inf_nan s1)
          end
      end
  end.
