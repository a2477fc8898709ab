(** Decimal numbers and their rounding to [f64], over the reals. *)
From Coq Require Import ZArith Reals.
From Flocq Require Import Core.
From Verif Require Import Base SpecJson.
Set Implicit Arguments.

(** The number of the form m * 2^e, |m| < 2^53, e >= -1074, next to [r]; the one with even m if two are. *)
Definition nearest (r : R) : R := round radix2 (FLT_exp (-1074) 53) ZnearestE r.
(** c * 10^k *)
Definition decimal (c k : Z) : R := (IZR c * powerRZ 10 k)%R.

(** [c * 10^k] has the fewest digits of all decimals that are rounded to [x], and is the closest to [x] of these. *)
Definition Shortest (x : R) (c k : Z) : Prop :=
  (exists n, 0 < c < 10 ^ n /\ nearest (decimal c k) = x /\
    (forall c' k', 0 < c' -> c' * 10 < 10 ^ n -> nearest (decimal c' k') <> x) /\
    (forall c' k', 0 < c' < 10 ^ n -> nearest (decimal c' k') = x -> (Rabs (decimal c k - x) <= Rabs (decimal c' k' - x))%R))%Z.

(** Digits, and the number they stand for. *)
Inductive Numeral : bytes -> Z -> Prop :=
| N_none : Numeral [] 0
| N_digit ds n d x : Numeral ds n -> Z.of_N (Byte.to_N d) = (0x30 + x)%Z -> (0 <= x < 10)%Z -> Numeral (ds ++ [d]) (10 * n + x).
(** The text of a number of JSON: has it a minus, and what decimal follows? *)
Definition Means (tok : bytes) (minus : bool) (c k : Z) : Prop :=
  exists ip ds ep x, tok = (if minus then [x2d] else []) ++ ip ++ ds ++ ep /\ Digits ip /\
    (exists fs, (ds = [] /\ fs = [] \/ ds = x2e :: fs /\ fs <> []) /\ Numeral (ip ++ fs) c /\ k = (x - Z.of_nat (length fs))%Z) /\
    (ep = [] /\ x = 0%Z \/
     exists e s es n, ep = e :: s ++ es /\ (e = x65 \/ e = x45) /\ es <> [] /\ Numeral es n /\
       (s = [] /\ x = n \/ s = [x2b] /\ x = n \/ s = [x2d] /\ x = (- n)%Z)).
