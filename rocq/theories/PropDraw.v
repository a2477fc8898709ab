(** Which strings a sample counts for (src/generate.rs): C57. *)
From Verif Require Import Base BaseProofs F64 F64Proofs Utf8 SpecUtf8 Utf8Proofs Trie Model Sort Par ParProofs MineProofs PropFilter Generate GenerateProofs PropGenerate SpecGenerate DrawProofs.
Set Implicit Arguments.
Local Open Scope nat_scope.
Local Ltac splits := repeat match goal with |- _ /\ _ => split end.

(** ** C57 *)
(** The draws for a sample.  One for every permitted stretch of every part, each time it occurs; then, for every listed token, one for each of its
    occurrences (not overlapping, from the left) until one wins.  A string is counted if it wins a draw. *)
Definition Drawn (g : generator) (rnd : nat -> f64) (sample : bytes) (set : list bytes) : Prop :=
  let win := fun k => fltb (rnd k) (g_insert_probability g) in
  exists parts stretches ms,
    match g_split g with None => parts = [sample] | Some split => map Some parts = split sample end /\
    Forall2 (fun part l => exists cs, Forall scalar cs /\ part = encode_string cs /\
      l = filter (fun x => match g_allow g with None => true | Some allow => allow x end) (windows (g_max_token_length g) cs)) parts stretches /\
    let first := length (concat stretches) in
    let listed := g_added g ++ g_suggested g in
    length ms = length listed /\
    (forall i t m, nth_error listed i = Some t -> nth_error ms i = Some m ->
      exists n, Occurrences t sample n /\ until_won win (first + list_sum (firstn i ms)) n m) /\
    NoDup set /\
    forall x, In x set <-> exists k, nth_error (concat stretches ++ concat (map (fun y => repeat (fst y) (snd y)) (combine listed ms))) k = Some x /\ win k = true.

Theorem C57_sample : forall g rnd sample set, strings g [sample] -> sample_tokens g rnd sample = Ok set -> Drawn g rnd sample set.
Proof.
  intros g rnd sample set [HU HS] H. inversion HU as [|? ? Hs _]; subst. destruct (sample_tokens_spec g rnd sample H) as (HD & _ & _).
  set (ok := fun x => match g_allow g with None => true | Some allow => allow x end).
  assert (HP : exists parts, match g_split g with None => parts = [sample] | Some split => map Some parts = split sample end /\ Forall Utf8 parts /\
    set = snd (fold_left (fun st token => listed_loop g rnd (count_matches sample token) token st) (g_added g ++ g_suggested g) (fold_left (try_candidate g rnd) (flat_map (part_cands (g_max_token_length g)) parts) (0, [])))).
  { unfold sample_tokens in H. destruct (g_split g) as [split|] eqn:Es.
    - destruct (parts_loop g rnd (split sample) (0, [])) as [st| | |] eqn:E; try discriminate. injection H as <-. apply parts_loop_fold in E as [HN ->].
      assert (HX : exists parts, map Some parts = split sample).
      { clear - HN. induction (split sample) as [|[p|] l IH]; [now exists []| |exfalso; apply (HN None); [now left|reflexivity]]. destruct IH as (parts & E); [intros q Hq; apply HN; now right|]. exists (p :: parts). simpl. congruence. }
      destruct HX as (parts & E). exists parts. split; [exact E|]. split.
      + apply Forall_forall. intros p Hp. apply (HS split sample p); [reflexivity|now left|]. rewrite <- E. now apply in_map.
      + rewrite <- E. f_equal. f_equal. f_equal. clear. induction parts as [|p parts IH]; [reflexivity|]. cbn [map flat_map]. now rewrite IH.
    - injection H as <-. exists [sample]. split; [reflexivity|]. split; [now constructor|]. cbn [flat_map]. rewrite app_nil_r, part_loop_fold. reflexivity. }
  destruct HP as (parts & HE & HPU & ->).
  assert (HW : exists stretches, Forall2 (fun part l => exists cs, Forall scalar cs /\ part = encode_string cs /\ l = filter ok (windows (g_max_token_length g) cs)) parts stretches /\
    filter ok (flat_map (part_cands (g_max_token_length g)) parts) = concat stretches).
  { clear - HPU. induction HPU as [|p parts (cs & Hcs & ->) _ (ss & HF & E)]; [exists []; split; [constructor|reflexivity]|]. exists (filter ok (windows (g_max_token_length g) cs) :: ss). split; [constructor; [exists cs; auto|exact HF]|].
    cbn [flat_map concat]. rewrite filter_app, E, part_cands_eq by exact Hcs. reflexivity. }
  destruct HW as (stretches & HF & Ew). destruct (try_draws g rnd (flat_map (part_cands (g_max_token_length g)) parts) (0, [])) as [H1 H2]. cbn zeta in *. set (st1 := fold_left (try_candidate g rnd) _ _) in *.
  change (allow_it g) with ok in *. rewrite Ew in H1, H2. cbn [fst snd] in *. destruct (all_listed_draws g rnd sample (g_added g ++ g_suggested g) st1) as (ms & HT & HY). cbn zeta in *. rewrite H1 in HT, HY. cbn [Nat.add] in *.
  exists parts, stretches, ms. split; [exact HE|]. split; [exact HF|]. cbv zeta. splits.
  - clear - HT. revert HT. generalize (length (concat stretches)). generalize (g_added g ++ g_suggested g). intros l k HT. induction HT; simpl; congruence.
  - clear - HT Hs. revert HT. generalize (length (concat stretches)). generalize (g_added g ++ g_suggested g). intros l k HT. induction HT as [|t l k m ms HU _ IH]; intros [|i] t' m' Ht Hm; try discriminate.
    + injection Ht as <-. injection Hm as <-. exists (count_matches sample t). split; [now apply count_occurrences|]. simpl. rewrite Nat.add_0_r. exact HU.
    + destruct (IH i t' m' Ht Hm) as (n & Ho & Hu). exists n. split; [exact Ho|]. cbn [firstn list_sum fold_right] in *. change (fold_right Nat.add 0 (firstn i ms)) with (list_sum (firstn i ms)). now rewrite Nat.add_assoc.
  - exact HD.
  - intros x. rewrite HY, H2. unfold owners. fold (win g rnd). split.
    + intros [[[]|(k & Hk & Hw)]|(k & Hk & Hw)].
      * exists k. split; [rewrite nth_error_app1; [exact Hk|apply nth_error_Some; congruence]|exact Hw].
      * exists (length (concat stretches) + k). split; [|exact Hw]. rewrite nth_error_app2 by lia. replace (length (concat stretches) + k - length (concat stretches)) with k by lia. exact Hk.
    + intros (k & Hk & Hw). destruct (Nat.lt_ge_cases k (length (concat stretches))) as [Hlt|Hge].
      * left. right. exists k. rewrite nth_error_app1 in Hk by exact Hlt. auto.
      * right. exists (k - length (concat stretches)). rewrite nth_error_app2 in Hk by exact Hge. split; [exact Hk|]. rewrite <- Hw. unfold win. do 2 f_equal. lia.
Qed.
Print Assumptions C57_sample.

(** The number of occurrences is determined. *)
Theorem C57_occurrences_unique : forall t s n m, Occurrences t s n -> Occurrences t s m -> n = m.
Proof.
  intros t s n m [(-> & cs & Hcs & -> & ->)|(Ht & Hn)] [(Et & cs' & Hcs' & E & ->)|(Ht' & Hm)]; try congruence.
  - f_equal. assert (HL : forall cs, Forall scalar cs -> length (char_indices (encode_string cs)) = length cs).
    { clear. intros cs H. rewrite char_indices_spec by exact H. generalize 0. clear. induction cs as [|c cs IH]; intros i; [reflexivity|]. cbn [offsets length]. f_equal. apply IH. }
    rewrite <- (HL cs Hcs), <- (HL cs' Hcs'). now rewrite E.
  - now apply (@greedy_unique t s).
Qed.
(** The whole: each sample adds one to the count of each string that wins one of its draws. *)
Theorem C57_feed : forall g threads samples g', Fed g -> strings g samples -> feed_result g threads samples (Ok g') ->
  exists sets, Forall2 (fun sample set => exists rnd, (forall k, in_unit (rnd k)) /\ Drawn g rnd sample set) samples sets /\
    forall x, exists n, Count (fun set => In x set) sets n /\ count_of bytes_eqb x (g_frequencies g') = count_of bytes_eqb x (g_frequencies g) + n.
Proof.
  intros g threads samples g' Hg [HU HS] H. apply Fed_ok in Hg as [HD _]. destruct (feed_spec HD H) as (sets & HF & _ & _ & HC & _). exists sets.
  assert (HF' : Forall2 (fun sample set => exists rnd, (forall k, in_unit (rnd k)) /\ Drawn g rnd sample set) samples sets).
  { clear - HF HU HS. assert (HI : forall s, In s samples -> strings g [s]).
    { intros s Hs. split; [constructor; [rewrite Forall_forall in HU; auto|constructor]|]. intros split s' part E [<-|[]] Hp. eauto. }
    clear HU HS. induction HF as [|s set samples sets (rnd & set0 & Hr & H & HP) _ IH]; constructor; [|apply IH; intros; apply HI; now right].
    exists rnd. split; [exact Hr|]. apply C57_sample in H; [|apply HI; now left]. destruct H as (parts & st & ms & H1 & H2 & H3 & H4 & H5 & H6). exists parts, st, ms. cbv zeta. splits; auto.
    - now apply (Permutation_NoDup HP).
    - intros x. rewrite <- H6. split; apply Permutation_in; [now apply Permutation_sym|exact HP]. }
  split; [exact HF'|]. intros x. exists (count_occ bytes_dec (concat sets) x). split; [|apply HC].
  clear - HF'. induction HF' as [|s set samples sets (rnd & _ & H) _ IH]; [constructor|]. destruct H as (parts & st & ms & _ & _ & _ & _ & H5 & _). cbn [concat]. rewrite count_occ_app.
  destruct (in_dec bytes_dec x set) as [Hin|Hout].
  - assert (E : count_occ bytes_dec set x = 1) by (now apply NoDup_count_occ'). rewrite E. now apply Count_yes.
  - assert (E : count_occ bytes_dec set x = 0) by (now apply count_occ_not_In). rewrite E. now apply Count_no.
Qed.
Print Assumptions C57_feed.

(** "aaa" has five draws for its stretches "a", "aa", "a", "aa", "a", and one for the listed "aa" (its occurrences overlap, so there is one only).
    Only draw 0 is less than 1/2, so "a" is counted and "aa" is not. *)
Definition exd_gen : generator := gen_new 2 fhalf None None [] [[x61; x61]].
Definition exd_rnd (k : nat) : f64 := if k =? 0 then f0 else fhalf.
Example C57_example : sample_tokens exd_gen exd_rnd [x61; x61; x61] = Ok [[x61]] /\ strings exd_gen [[x61; x61; x61]] /\ Occurrences [x61; x61] [x61; x61; x61] 1 /\
  windows 2 [97; 97; 97]%N = [[x61]; [x61; x61]; [x61]; [x61; x61]; [x61]].
Proof.
  assert (HU : Utf8 [x61; x61; x61]) by (exists [97; 97; 97]%N; split; [repeat constructor|reflexivity]).
  splits; [vm_compute; reflexivity|split; [now constructor|discriminate]|exact (count_occurrences [x61; x61] HU)|reflexivity].
Qed.
