(** Properties of parallel loops: idiom mining (src/mine.rs) and progress reports (src/task.rs). *)
From Verif Require Import Base BaseProofs Sort SortProofs Par ParProofs Mine MineProofs TaskProofs.
Set Implicit Arguments.

(** ** C30 *)
Definition occurrences (find_all : bytes -> list bytes) (samples : list bytes) (idiom : bytes) : nat :=
  count_occ bytes_dec (flat_map find_all samples) idiom.
Theorem C30_mine_counts : forall find_all s threads num samples result, valid_sorter s ->
  mine_result find_all s threads num samples result ->
  length result <= num /\ NoDup (map fst result) /\
  (forall idiom n, In (idiom, n) result -> n = occurrences find_all samples idiom /\ 0 < n) /\
  StronglySorted (fun a b => snd b <= snd a) result /\
  (* what is left out is not more frequent than anything kept, and only left out for lack of room *)
  (forall idiom, 0 < occurrences find_all samples idiom -> ~ In idiom (map fst result) ->
     length result = num /\ forall idiom' n', In (idiom', n') result -> occurrences find_all samples idiom <= n').
Proof. intros; eapply mine_spec; eassumption. Qed.
Print Assumptions C30_mine_counts.
(** The counts reported do not depend on the number of threads, the schedule or the sorting algorithm. *)
Theorem C30_schedule_independent : forall find_all s s' threads threads' num samples r r', valid_sorter s -> valid_sorter s' ->
  mine_result find_all s threads num samples r -> mine_result find_all s' threads' num samples r' -> map snd r = map snd r'.
Proof. intros; eapply mine_counts_unique; [exact H|exact H0|eassumption|eassumption]. Qed.
Print Assumptions C30_schedule_independent.
(** A result always exists. *)
Theorem C30_result_exists : forall find_all s threads num samples, exists r, mine_result find_all s threads num samples r.
Proof.
  intros. eexists. exists (map (chunk_idioms find_all) (chunks (par_chunk_size threads (length samples) 5) samples)). eexists. eexists.
  split; [|split; [apply Interleaving_concat|split; reflexivity]].
  induction (chunks _ samples); constructor; auto.
Qed.
(** Example: samples "aab", "ba", "b"; every character is a match; two chunks interleaved. *)
Definition ex_find (s : bytes) : list bytes := map (fun b => [b]) s.
Definition ex_samples3 : list bytes := [[x61; x61; x62]; [x62; x61]; [x62]; [x63]].
Example C30_example : mine_result ex_find insertion_sort 8 2 ex_samples3 [([x62], 3); ([x61], 3)].
Proof.
  exists [[([x62], 1); ([x61], 2)]; [([x62], 1); ([x61], 1)]; [([x62], 1)]; [([x63], 1)]].
  exists [([x62], 1); ([x62], 1); ([x61], 2); ([x63], 1); ([x62], 1); ([x61], 1)].
  exists [([x62], 3); ([x61], 3); ([x63], 1)]. repeat split.
  - repeat constructor; apply perm_swap.
  - refine (@Il_step _ [] _ _ _ _ _). refine (@Il_step _ [_] _ _ _ _ _). refine (@Il_step _ [] _ _ _ _ _).
    refine (@Il_step _ [_; _; _] _ _ _ _ _). refine (@Il_step _ [_; _] _ _ _ _ _). refine (@Il_step _ [_] _ _ _ _ _).
    constructor. repeat constructor.
  - vm_compute. reflexivity.
Qed.
Example C30_example_counts : occurrences ex_find ex_samples3 [x61] = 3 /\ occurrences ex_find ex_samples3 [x63] = 1.
Proof. split; reflexivity. Qed.

(** ** C46 *)
Theorem C46_chunks_partition : forall A threads f (samples : list A),
  let c := par_chunk_size threads (length samples) f in
  1 <= c /\
  concat (chunks c samples) = samples /\
  Forall (fun chunk => 1 <= length chunk <= c) (chunks c samples) /\
  length (chunks c samples) * c < length samples + c.
Proof.
  intros A threads f samples c. assert (Hc : 1 <= c) by (subst c; unfold par_chunk_size; lia). repeat split; [exact Hc|now apply chunks_concat|now apply chunks_loop_sizes|].
  unfold chunks. rewrite chunks_loop_count by lia. assert (H := Nat.mul_div_le (length samples + (c - 1)) c). lia.
Qed.
Print Assumptions C46_chunks_partition.
(** The number of chunks in the log is one too many exactly if the chunk size divides the number of samples. *)
Theorem C46_logged_chunks : forall A (samples : list A) c, 1 <= c ->
  (Nat.divide c (length samples) -> logged_chunks (length samples) c = S (length (chunks c samples))) /\
  (~ Nat.divide c (length samples) -> logged_chunks (length samples) c = length (chunks c samples)).
Proof.
  intros A samples c Hc. unfold chunks, logged_chunks. rewrite chunks_loop_count by lia. set (n := length samples).
  replace (n + c) with (n + 1 * c) by lia. rewrite Nat.div_add by lia.
  split.
  - intros [k E]. rewrite E, Nat.div_mul by lia. replace (k * c + (c - 1)) with (c - 1 + k * c) by lia. rewrite Nat.div_add by lia. rewrite (Nat.div_small (c - 1)) by lia. lia.
  - intros Hn. assert (Hmod : 0 < n mod c).
    { destruct (Nat.eq_0_gt_0_cases (n mod c)) as [E|]; [|assumption]. exfalso. apply Hn. now apply Nat.mod_divide; [lia|]. }
    assert (Hlt := Nat.mod_upper_bound n c). rewrite (Nat.div_mod_eq n c) at 2.
    replace (c * (n / c) + n mod c + (c - 1)) with (n mod c - 1 + (n / c + 1) * c) by lia. rewrite Nat.div_add by lia.
    rewrite (Nat.div_small (n mod c - 1)) by lia. lia.
Qed.
Print Assumptions C46_logged_chunks.
Example C46_example : par_chunk_size 2 21 5 = 2 /\ chunks 2 (seq 0 5) = [[0; 1]; [2; 3]; [4]] /\ par_chunk_size 64 21 5 = 1 /\
  logged_chunks 4 2 = 3 /\ length (chunks 2 (seq 0 4)) = 2 /\ logged_chunks 5 2 = 3 /\ length (chunks 2 (seq 0 5)) = 3.
Proof. repeat split. Qed.

(** ** C47 *)
(** [chs]: the byte lengths of the samples of every chunk.  In every reachable state: *)
Theorem C47_counters : forall chs calls_finish t, task_steps (length (concat chs)) (task_init chs calls_finish) t ->
  ts_samples t <= length (concat chs) /\ ts_bytes t <= list_sum (concat chs) /\
  (Forall (eq []) (ts_workers t) -> ts_samples t = length (concat chs) /\ ts_bytes t = list_sum (concat chs)).
Proof.
  intros chs c t H. apply task_reachable in H as (H1 & H2 & _). split; [lia|]. split; [lia|].
  intros Hd. rewrite !pending_done in H1, H2 by exact Hd. lia.
Qed.
Print Assumptions C47_counters.
(** The monitor stops only when all samples are done ... *)
Theorem C47_monitor_stops_late : forall chs calls_finish t b, task_steps (length (concat chs)) (task_init chs calls_finish) t ->
  ts_monitor t = Stopped b -> ts_samples t = length (concat chs).
Proof. intros chs c t b H E. apply task_reachable in H as (_ & _ & _ & H). rewrite E in H. apply H. Qed.
Print Assumptions C47_monitor_stops_late.
(** ... and then it does, within three of its own steps, whether or not [Task::finish] is called. *)
Inductive monitor_steps (n : nat) : nat -> task_state -> task_state -> Prop :=
| ms_refl t : monitor_steps n 0 t t
| ms_step k t1 t2 t3 : task_step n t1 t2 -> ts_monitor t1 <> ts_monitor t2 -> monitor_steps n k t2 t3 -> monitor_steps n (S k) t1 t3.
Theorem C47_monitor_stops : forall chs calls_finish t k t',
  task_steps (length (concat chs)) (task_init chs calls_finish) t -> Forall (eq []) (ts_workers t) ->
  monitor_steps (length (concat chs)) k t t' -> k <= 3 /\ (k = 3 -> exists b, ts_monitor t' = Stopped b).
Proof.
  intros chs c t k t' H Hd Hm. apply C47_counters in H as (_ & _ & H). destruct (H Hd) as [Hs _]. clear H.
  set (rank := fun t => match ts_monitor t with AtTop => 3 | AtCounters => 2 | AtExit => 1 | Stopped _ => 0 end).
  assert (Hstep : forall t1 t2, ts_samples t1 = length (concat chs) -> Forall (eq []) (ts_workers t1) -> task_step (length (concat chs)) t1 t2 ->
    ts_monitor t1 <> ts_monitor t2 ->
    ts_samples t2 = length (concat chs) /\ Forall (eq []) (ts_workers t2) /\ rank t2 < rank t1).
  { intros t1 t2 E1 E2 St Ne. unfold rank. destruct St; cbn [ts_samples ts_workers ts_monitor] in *; try congruence.
    - repeat split; auto. destruct f; lia.
    - repeat split; auto. subst s. rewrite Nat.leb_refl. lia.
    - repeat split; auto. }
  assert (Hk : k + rank t' <= rank t).
  { induction Hm as [|k t1 t2 t3 St Ne Hm IH]; [lia|]. destruct (Hstep _ _ Hs Hd St Ne) as (E1 & E2 & Hr). specialize (IH E2 E1). lia. }
  assert (rank t <= 3) by (unfold rank; destruct (ts_monitor t); lia). split; [lia|].
  intros ->. assert (Hr : rank t' = 0) by lia. unfold rank in Hr. destruct (ts_monitor t'); try discriminate. eauto.
Qed.
Print Assumptions C47_monitor_stops.
(** The byte count it reports may be too small, however: samples are counted before bytes. *)
Theorem C47_bytes_refuted : exists chs t b, task_steps (length (concat chs)) (task_init chs true) t /\
  ts_monitor t = Stopped b /\ b < list_sum (concat chs).
Proof.
  exists [[5; 7]], (TS 2 0 false [[AddBytes 12]] true (Stopped 0)), 0. split; [|split; [reflexivity|simpl; lia]].
  eapply steps_step; [apply (@step_samples 2 0 0 false [] 2 [AddBytes 12] [])|].
  eapply steps_step; [apply step_top|]. eapply steps_step; [apply step_counters|]. eapply steps_step; [apply step_exit|]. apply steps_refl.
Qed.
Example C47_example : task_steps 3 (task_init [[5; 7]; [1]] false) (TS 3 13 false [[]; []] false (Stopped 13)).
Proof.
  unfold task_init. simpl.
  eapply steps_step; [apply (@step_samples 3 0 0 false [] 2 [AddBytes 12] [[AddSamples 1; AddBytes 1]])|].
  eapply steps_step; [apply step_top|]. eapply steps_step; [apply step_counters|].
  eapply steps_step; [apply (@step_samples 3 2 0 false [[AddBytes 12]] 1 [AddBytes 1] [])|].
  eapply steps_step; [apply (@step_bytes 3 3 0 false [[AddBytes 12]] 1 [] [])|].
  eapply steps_step; [apply (@step_bytes 3 3 1 false [] 12 [] [[]])|].
  eapply steps_step; [apply step_top|]. eapply steps_step; [apply step_counters|]. eapply steps_step; [apply step_exit|]. apply steps_refl.
Qed.
