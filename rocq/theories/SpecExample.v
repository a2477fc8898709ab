(** Independent vocabulary for the properties of the example of the Python class. *)
From Verif Require Import Base.
Set Implicit Arguments.

(** The text [p] occurs in [s]. *)
Definition Inside (p s : bytes) : Prop := exists a b, s = a ++ p ++ b.

(** The only special tokens that occur in the three texts together are the first one, at the beginning, and the last one, at the end. *)
Definition Framed (specials : list bytes) (o text c : bytes) : Prop :=
  In o specials /\ In c specials /\ o <> [] /\ text <> [] /\ c <> [] /\
  forall sp a b, In sp specials -> o ++ text ++ c = a ++ sp ++ b -> a = [] /\ sp = o \/ a = o ++ text /\ sp = c.
