(** The base64 engine used for token values that are not UTF-8
    (src/lib.rs:8, [STANDARD_NO_PAD] of the base64 crate 0.21: standard alphabet, no padding
    written, padding rejected, non-zero trailing bits rejected).  The crate is not part of /repo; this is its
    documented behaviour. *)
From Verif Require Import Base Utf8 SpecUtf8.
Set Implicit Arguments.

(** The standard alphabet. *)
Definition b64_char (n : N) : byte :=
  (if n <? 26 then byte_of_N (0x41 + n)
   else if n <? 52 then byte_of_N (0x61 + (n - 26))
   else if n <? 62 then byte_of_N (0x30 + (n - 52))
   else if n =? 62 then x2b else x2f)%N.

Definition b64_val (b : byte) : option N :=
  if in_range 0x41 0x5A b then Some (bN b - 0x41)%N
  else if in_range 0x61 0x7A b then Some (bN b - 0x61 + 26)%N
  else if in_range 0x30 0x39 b then Some (bN b - 0x30 + 52)%N
  else if Byte.eqb b x2b then Some 62%N
  else if Byte.eqb b x2f then Some 63%N
  else None.

(** src/lib.rs:120 [BASE64_STANDARD.encode]. *)
Fixpoint b64_encode (s : bytes) : bytes :=
  match s with
  | [] => []
  | [a] => [b64_char (bN a / 4); b64_char (bN a mod 4 * 16)]
  | [a; b] => [b64_char (bN a / 4); b64_char (bN a mod 4 * 16 + bN b / 16); b64_char (bN b mod 16 * 4)]
  | a :: b :: c :: s' =>
      b64_char (bN a / 4) :: b64_char (bN a mod 4 * 16 + bN b / 16) ::
      b64_char (bN b mod 16 * 4 + bN c / 64) :: b64_char (bN c mod 64) :: b64_encode s'
  end%N.

(** src/lib.rs:182-184 [BASE64_STANDARD.decode]; [None] is any of its errors. *)
Fixpoint b64_decode (s : bytes) : option bytes :=
  match s with
  | [] => Some []
  | [_] => None
  | [a; b] =>
      match b64_val a, b64_val b with
      | Some va, Some vb => if vb mod 16 =? 0 then Some [byte_of_N (va * 4 + vb / 16)] else None
      | _, _ => None
      end
  | [a; b; c] =>
      match b64_val a, b64_val b, b64_val c with
      | Some va, Some vb, Some vc =>
          if vc mod 4 =? 0 then Some [byte_of_N (va * 4 + vb / 16); byte_of_N (vb mod 16 * 16 + vc / 4)] else None
      | _, _, _ => None
      end
  | a :: b :: c :: d :: s' =>
      match b64_val a, b64_val b, b64_val c, b64_val d, b64_decode s' with
      | Some va, Some vb, Some vc, Some vd, Some r =>
          Some (byte_of_N (va * 4 + vb / 16) :: byte_of_N (vb mod 16 * 16 + vc / 4) ::
                byte_of_N (vc mod 4 * 64 + vd) :: r)
      | _, _, _, _, _ => None
      end
  end%N.
