(** The parts of the Rust standard library's UTF-8 handling that /repo calls:
    [str::from_utf8] / [String::from_utf8] (validity), [String::from_utf8_lossy],
    [str::char_indices].  They are not in /repo; they are modelled after their
    documentation: a byte string is cut into well-formed characters and maximal
    ill-formed parts. *)
From Verif Require Import Base.
Set Implicit Arguments.

Definition bN (b : byte) : N := Byte.to_N b.
Definition in_range (lo hi : N) (b : byte) : bool := (lo <=? bN b)%N && (bN b <=? hi)%N.
(** Continuation bytes 80..BF. *)
Definition is_cont (b : byte) : bool := in_range 0x80 0xBF b.

(** The second byte allowed after a three-byte lead. *)
Definition second3 (b0 b1 : byte) : bool :=
  if (bN b0 =? 0xE0)%N then in_range 0xA0 0xBF b1
  else if (bN b0 =? 0xED)%N then in_range 0x80 0x9F b1
  else is_cont b1.
(** The second byte allowed after a four-byte lead. *)
Definition second4 (b0 b1 : byte) : bool :=
  if (bN b0 =? 0xF0)%N then in_range 0x90 0xBF b1
  else if (bN b0 =? 0xF4)%N then in_range 0x80 0x8F b1
  else is_cont b1.

(** What a non-empty byte string begins with: a character of [n] bytes, or a
    maximal ill-formed part of [n] bytes. *)
Inductive utf8_head := GoodChar (n : nat) | BadPart (n : nat).

Definition utf8_step (s : bytes) : utf8_head :=
  match s with
  | [] => BadPart 0
  | b0 :: s1 =>
      if (bN b0 <? 0x80)%N then GoodChar 1
      else if in_range 0xC2 0xDF b0 then
        match s1 with
        | b1 :: _ => if is_cont b1 then GoodChar 2 else BadPart 1
        | [] => BadPart 1
        end
      else if in_range 0xE0 0xEF b0 then
        match s1 with
        | b1 :: s2 =>
            if second3 b0 b1 then
              match s2 with
              | b2 :: _ => if is_cont b2 then GoodChar 3 else BadPart 2
              | [] => BadPart 2
              end
            else BadPart 1
        | [] => BadPart 1
        end
      else if in_range 0xF0 0xF4 b0 then
        match s1 with
        | b1 :: s2 =>
            if second4 b0 b1 then
              match s2 with
              | b2 :: s3 =>
                  if is_cont b2 then
                    match s3 with
                    | b3 :: _ => if is_cont b3 then GoodChar 4 else BadPart 3
                    | [] => BadPart 3
                    end
                  else BadPart 2
              | [] => BadPart 2
              end
            else BadPart 1
        | [] => BadPart 1
        end
      else BadPart 1
  end.

(** [std::str::from_utf8(s).is_ok()]. *)
Fixpoint utf8_ok_fuel (fuel : nat) (s : bytes) : bool :=
  match s with
  | [] => true
  | _ :: _ =>
      match fuel with
      | 0 => false
      | S fuel' =>
          match utf8_step s with
          | GoodChar n => utf8_ok_fuel fuel' (skipn n s)
          | BadPart _ => false
          end
      end
  end.
Definition utf8_ok (s : bytes) : bool := utf8_ok_fuel (length s) s.

(** U+FFFD in UTF-8. *)
Definition replacement : bytes := [xef; xbf; xbd].

(** [String::from_utf8_lossy(s)]. *)
Fixpoint lossy_fuel (fuel : nat) (s : bytes) : bytes :=
  match s with
  | [] => []
  | _ :: _ =>
      match fuel with
      | 0 => []
      | S fuel' =>
          match utf8_step s with
          | GoodChar n => firstn n s ++ lossy_fuel fuel' (skipn n s)
          | BadPart n => replacement ++ lossy_fuel fuel' (skipn n s)
          end
      end
  end.
Definition from_utf8_lossy (s : bytes) : bytes := lossy_fuel (length s) s.

(** [s.char_indices()]: the byte offsets (relative to [s], starting at [i]) at which
    the characters of a valid string begin, with their lengths.  On an invalid
    string, which a [&str] never is, it stops at the first ill-formed part. *)
Fixpoint char_indices_fuel (fuel i : nat) (s : bytes) : list (nat * nat) :=
  match s with
  | [] => []
  | _ :: _ =>
      match fuel with
      | 0 => []
      | S fuel' =>
          match utf8_step s with
          | GoodChar n => (i, n) :: char_indices_fuel fuel' (i + n) (skipn n s)
          | BadPart _ => []
          end
      end
  end.
Definition char_indices (s : bytes) : list (nat * nat) := char_indices_fuel (length s) 0 s.
