(** Parallel loops over chunks of samples (rayon), counters in hash maps, and src/task.rs. *)
From Verif Require Import Base Sort.
Set Implicit Arguments.

(** [xs.chunks(c)], [xs.par_chunks(c)] for c >= 1. *)
Fixpoint chunks_loop {A} (fuel c : nat) (l : list A) : list (list A) :=
  match fuel, l with
  | S fuel', _ :: _ => firstn c l :: chunks_loop fuel' c (skipn c l)
  | _, _ => []
  end.
Definition chunks {A} (c : nat) (l : list A) : list (list A) := chunks_loop (length l) c l.

(** src/task.rs:134-137 [par_chunk_size].  [threads] is [current_num_threads()], at least 1; the callers pass f = 2, 4, 5 or 8
    (a division by zero panics). *)
Definition par_chunk_size (threads num_samples f : nat) : nat := Nat.max 1 (num_samples / threads / f).

(** src/task.rs:35: the number of chunks announced in the log. *)
Definition logged_chunks (num_samples chunk_size : nat) : nat := (num_samples + chunk_size) / chunk_size.

(** The atomic actions of several threads, in some global order that respects the order of each thread. *)
Inductive Interleaving {A} : list (list A) -> list A -> Prop :=
| Il_done ls : Forall (eq []) ls -> Interleaving ls []
| Il_step ls1 a l ls2 out : Interleaving (ls1 ++ l :: ls2) out -> Interleaving (ls1 ++ (a :: l) :: ls2) (a :: out).

(** [*map.entry(k).or_insert(0) += n] on a [HashMap], [FnvHashMap] or [DashMap]; an entry of a [DashMap] is locked meanwhile.
    Counters do not wrap around in the model. *)
Section Counts.
  Context {K : Type} (eqb : K -> K -> bool).
  Definition count_of (k : K) (m : list (K * nat)) : nat := match hm_get eqb k m with Some n => n | None => 0 end.
  Definition add_count (m : list (K * nat)) (u : K * nat) : list (K * nat) :=
    hm_insert eqb (fst u) (count_of (fst u) m + snd u) m.
  Definition add_counts (m : list (K * nat)) (us : list (K * nat)) : list (K * nat) := fold_left add_count us m.
End Counts.

(** ** src/task.rs: the progress counters *)

(** src/task.rs:119-126 [LocalTask::finish]: two atomic additions, one after the other. *)
Inductive task_op := AddSamples (n : nat) | AddBytes (n : nat).
Definition local_finish (num_chunk_samples num_bytes : nat) : list task_op := [AddSamples num_chunk_samples; AddBytes num_bytes].

(** src/task.rs:53-103: where the thread spawned by [start] is: before the load of [finished], before that of the counters,
    before that of [num_bytes_processed] in line 93, or done, having logged that number. *)
Inductive monitor := AtTop | AtCounters | AtExit | Stopped (logged_bytes : nat).

Record task_state := TS {
  ts_samples : nat;       (* num_samples_processed *)
  ts_bytes : nat;         (* num_bytes_processed *)
  ts_finished : bool;     (* finished *)
  ts_workers : list (list task_op);  (* what the workers have still to do *)
  ts_main : bool;         (* is a call of Task::finish to come after the loop? *)
  ts_monitor : monitor
}.

(** Initially: one worker sequence for every chunk of samples (their byte lengths). *)
Definition task_init (chunks_of_lengths : list (list nat)) (calls_finish : bool) : task_state :=
  TS 0 0 false (map (fun ch => local_finish (length ch) (list_sum ch)) chunks_of_lengths) calls_finish AtTop.

(** All memory accesses are atomic; they are taken in one global order. *)
Inductive task_step (num_samples : nat) : task_state -> task_state -> Prop :=
| step_samples s b f ws1 n w ws2 c m :
    task_step num_samples (TS s b f (ws1 ++ (AddSamples n :: w) :: ws2) c m) (TS (s + n) b f (ws1 ++ w :: ws2) c m)
| step_bytes s b f ws1 n w ws2 c m :
    task_step num_samples (TS s b f (ws1 ++ (AddBytes n :: w) :: ws2) c m) (TS s (b + n) f (ws1 ++ w :: ws2) c m)
(* the parallel loop has returned: src/task.rs:108-110 [finish] *)
| step_finish s b f ws m : Forall (eq []) ws ->
    task_step num_samples (TS s b f ws true m) (TS s b true ws false m)
(* the thread of [start] *)
| step_top s b f ws c :
    task_step num_samples (TS s b f ws c AtTop) (TS s b f ws c (if f then AtExit else AtCounters))
| step_counters s b f ws c :
    task_step num_samples (TS s b f ws c AtCounters) (TS s b f ws c (if num_samples <=? s then AtExit else AtTop))
| step_exit s b f ws c :
    task_step num_samples (TS s b f ws c AtExit) (TS s b f ws c (Stopped b)).

Inductive task_steps (n : nat) : task_state -> task_state -> Prop :=
| steps_refl t : task_steps n t t
| steps_step t1 t2 t3 : task_step n t1 t2 -> task_steps n t2 t3 -> task_steps n t1 t3.
