(** Vocabulary for the properties of the scripts. *)
From Coq Require Import Sorted.
From Verif Require Import Base SpecUtf8.
Set Implicit Arguments.
Local Open Scope nat_scope.

(** A text that can be stored between NUL characters. *)
Definition storable (s : bytes) : Prop := Utf8 s /\ ~ In x00 s /\ s <> [].
(** The samples in a file, and the bytes they take. *)
Definition stored (samples : list bytes) : bytes := flat_map (fun s => s ++ [x00]) samples.
Definition stored_bytes (samples : list bytes) : Z := Z.of_nat (List.length (stored samples)).
(** The first [k] samples are the fewest that reach [quota] bytes, or all. *)
Definition fewest (quota : Z) (samples : list bytes) (k : nat) : Prop :=
  k <= List.length samples /\ (k < List.length samples -> (quota <= stored_bytes (firstn k samples))%Z) /\
  forall j, j < k -> (stored_bytes (firstn j samples) < quota)%Z.

(** A text whose line ends were CR LF, CR or LF, and that has LF only. *)
Inductive Lines : bytes -> bytes -> Prop :=
| Lines_nil : Lines [] []
| Lines_crlf s t : Lines s t -> Lines (x0d :: x0a :: s) (x0a :: t)
| Lines_cr s t : (forall s', s <> x0a :: s') -> Lines s t -> Lines (x0d :: s) (x0a :: t)
| Lines_other b s t : b <> x0d -> Lines s t -> Lines (b :: s) (b :: t).

(** How often [id] occurs. *)
Definition uses (tokens : list nat) (id : nat) : nat := count_occ Nat.eq_dec tokens id.
(** The number of a byte, 0 to 255. *)
Definition byte_value (b : byte) : nat := N.to_nat (Byte.to_N b).

(** [Found needle s k]: the text [s] has [k] occurrences of [needle] that do not overlap. [Most]: and not more. *)
Inductive Found (needle : list N) : list N -> nat -> Prop :=
| Found_none s : Found needle s 0
| Found_one a s k : Found needle s k -> Found needle (a ++ needle ++ s) (S k).
Definition Most (needle s : list N) (k : nat) : Prop := Found needle s k /\ forall j, Found needle s j -> j <= k.

(** [First decode ids k i]: position [i] of [ids] is the first whose id stands for [k]. *)
Definition First {A} (decode : nat -> option A) (ids : list nat) (k : A) (i : nat) : Prop :=
  (exists id, nth_error ids i = Some id /\ decode id = Some k) /\ forall j id, j < i -> nth_error ids j = Some id -> decode id <> Some k.
