(** C72-C74: the Python scripts. *)
From Coq Require Import Permutation Sorted.
From Coq.Strings Require Import String.
From Verif Require Import Base BaseProofs F64 Utf8 SpecUtf8 Utf8Proofs Processor SpecJson Serde Regex RegexJoin Cli SpecCli CountProofs CliProofs PropCli Scripts SpecScripts.
Set Implicit Arguments.
Local Open Scope list_scope.
Local Notation length := List.length.
Local Ltac splits := repeat match goal with |- _ /\ _ => split end.
Lemma In_firstn {A} n (l : list A) x : In x (firstn n l) -> In x l.
Proof. intros H. rewrite <- (firstn_skipn n l). apply in_or_app. now left. Qed.
Lemma In_skipn {A} n (l : list A) x : In x (skipn n l) -> In x l.
Proof. intros H. rewrite <- (firstn_skipn n l). apply in_or_app. now right. Qed.

(** ** Writing samples *)
Lemma stored_bytes_eq samples : stored_bytes samples = Z.of_nat (length (stored samples)).
Proof. reflexivity. Qed.
Lemma stored_cons s samples : stored (s :: samples) = s ++ x00 :: stored samples.
Proof. unfold stored. simpl. now rewrite <- app_assoc. Qed.
Lemma stored_bytes_cons s samples : stored_bytes (s :: samples) = (Z.of_nat (length s) + 1 + stored_bytes samples)%Z.
Proof. rewrite !stored_bytes_eq, stored_cons, app_length. simpl length. lia. Qed.
Lemma stored_bytes_nonneg samples : (0 <= stored_bytes samples)%Z.
Proof. rewrite stored_bytes_eq. lia. Qed.
Lemma Parts_stored samples : Forall (fun s => ~ In x00 s) samples -> Parts x00 (stored samples) (samples ++ [[]]).
Proof.
  intros HF. split; [now destruct samples|]. split; [apply Forall_app; split; [exact HF|constructor; [intros []|constructor]]|].
  clear HF. induction samples as [|s samples IH]; [reflexivity|]. rewrite stored_cons, IH. destruct samples as [|s' samples]; reflexivity.
Qed.
Lemma Nonempty_stored samples : Forall (fun s => s <> []) samples -> Nonempty (samples ++ [[]]) samples.
Proof. induction 1 as [|s samples Hs _ IH]; simpl; [repeat constructor|]. destruct s as [|b s]; [congruence|]. now constructor. Qed.
Lemma Utf8_nil : Utf8 [].
Proof. exists []. split; [constructor|reflexivity]. Qed.
Lemma file_samples_stored samples : Forall storable samples -> file_samples (stored samples) = Ok samples.
Proof.
  intros HF. apply file_samples_ok. exists (samples ++ [[]]). split; [apply Parts_stored|split; [|apply Nonempty_stored]].
  - eapply Forall_impl; [|exact HF]. intros s Hs; apply Hs.
  - apply Forall_app. split; [eapply Forall_impl; [|exact HF]; intros s Hs; apply Hs|constructor; [exact Utf8_nil|constructor]].
  - eapply Forall_impl; [|exact HF]. intros s Hs; apply Hs.
Qed.
Lemma fewest_cons quota s samples k : (0 < quota)%Z -> fewest (quota - Z.of_nat (length s) - 1) samples k -> fewest quota (s :: samples) (S k).
Proof.
  intros Hq (H1 & H2 & H3). split; [simpl; lia|]. split.
  - simpl. intros Hk. rewrite stored_bytes_cons. specialize (H2 ltac:(lia)). lia.
  - intros [|j] Hj; [simpl; exact Hq|]. cbn [firstn]. rewrite stored_bytes_cons. specialize (H3 j ltac:(lia)). lia.
Qed.
Lemma fewest_zero quota samples : (quota <= 0)%Z -> fewest quota samples 0.
Proof. intros Hq. split; [lia|]. split; [intros _; simpl; exact Hq|intros j Hj; lia]. Qed.
Lemma fewest_nil quota : fewest quota [] 0.
Proof. split; [reflexivity|]. split; [simpl; lia|intros j Hj; lia]. Qed.

Lemma write_samples_spec train test samples : (0 <= train)%Z -> forall written, exists k m,
  fewest (test - written) samples k /\ fewest (test + train - written) samples m /\ k <= m /\
  write_samples both_splits train test written samples = Some (stored (firstn k samples), stored (skipn k (firstn m samples))).
Proof.
  intros Ht. induction samples as [|s samples IH]; intros written.
  - exists 0, 0. splits; auto using fewest_nil.
  - destruct (IH (written + Z.of_nat (length s) + 1)%Z) as (k & m & Hk & Hm & Hle & E). cbn [write_samples].
    change (existsb (fun k => beqs k "test") both_splits) with true. change (existsb (fun k => beqs k "train") both_splits) with true. rewrite E.
    replace (test - (written + Z.of_nat (length s) + 1))%Z with (test - written - Z.of_nat (length s) - 1)%Z in Hk by lia.
    replace (test + train - (written + Z.of_nat (length s) + 1))%Z with (test + train - written - Z.of_nat (length s) - 1)%Z in Hm by lia.
    destruct (Z.ltb_spec written test) as [H1|H1]; [|destruct (Z.ltb_spec written (test + train)) as [H2|H2]].
    + exists (S k), (S m). splits; [apply fewest_cons; [lia|exact Hk]|apply fewest_cons; [lia|exact Hm]|lia|]. cbn [option_map fst snd firstn skipn]. now rewrite stored_cons.
    + exists 0, (S m). splits; [apply fewest_zero; lia|apply fewest_cons; [lia|exact Hm]|lia|]. cbn [option_map fst snd firstn skipn].
      assert (k = 0) as ->. { destruct k as [|k]; [reflexivity|]. destruct Hk as (_ & _ & H3). specialize (H3 0 ltac:(lia)). simpl in H3. assert (H0 : (stored_bytes [] = 0)%Z) by reflexivity. lia. }
      cbn [firstn skipn]. now rewrite stored_cons.
    + exists 0, 0. splits; [apply fewest_zero; lia|apply fewest_zero; lia|lia|]. reflexivity.
Qed.

(** ** C72: the first samples, as few as fill the quota of the test file, are in the test file; the next ones, as few as fill both quotas
    together, in the training file; the program reads them back. *)
Theorem C72_files : forall train test samples, (0 <= train)%Z -> Forall storable samples ->
  exists k m test_file train_file, generate_files train test samples = Some (test_file, train_file) /\
    fewest test samples k /\ fewest (test + train) samples m /\ k <= m /\
    file_samples test_file = Ok (firstn k samples) /\ file_samples train_file = Ok (skipn k (firstn m samples)).
Proof.
  intros train test samples Ht HF. destruct (@write_samples_spec train test samples Ht 0) as (k & m & Hk & Hm & Hle & E). rewrite !Z.sub_0_r in *.
  exists k, m, (stored (firstn k samples)), (stored (skipn k (firstn m samples))). splits; auto; apply file_samples_stored.
  - apply Forall_forall. intros s Hs. rewrite Forall_forall in HF. apply HF. eapply In_firstn; eauto.
  - apply Forall_forall. intros s Hs. rewrite Forall_forall in HF. apply HF. eapply In_firstn, In_skipn; eauto.
Qed.
Print Assumptions C72_files.

(** The samples that training gets from such a file. *)
Theorem C72_training : forall fs parse_f64 normalize src name path samples,
  Parts x3a src [name; path] -> fs path = Some (stored samples) -> (forall path, match fs path with Some contents => countable contents | None => True end) ->
  (Z.of_nat (length samples) <= 2 ^ 53)%Z -> Forall storable samples ->
  load_source fs parse_f64 normalize [] src = Ok (Source name samples).
Proof.
  intros fs parse_f64 normalize src name path samples HP Hf Hc Hn HF. apply C48_source; [exact Hc|]. exists path, f1, (stored samples).
  split; [left; split; [exact HP|reflexivity]|]. split; [exact Hf|].
  assert (H : Forall (fun s => ~ In x00 s) samples /\ Forall Utf8 samples /\ Forall (fun s => s <> []) samples).
  { splits; (eapply Forall_impl; [|exact HF]); intros s Hs; apply Hs. }
  destruct H as (H1 & H2 & H3). destruct (@firstn_Share _ samples f1) as (k & Hk & _); [unfold usize_max; lia|].
  assert (k = length samples) as -> by (apply (@C48_share _ _ _ Hn Hk); reflexivity).
  exists (samples ++ [[]]), samples, (length samples), samples. splits; auto using Parts_stored, Nonempty_stored.
  - apply Forall_app. split; [exact H2|constructor; [exact Utf8_nil|constructor]].
  - rewrite firstn_all. clear. induction samples; constructor; [constructor|assumption].
  - clear -H3. induction H3 as [|s l Hs _ IH]; [constructor|]. destruct s; [congruence|]. now constructor.
Qed.
Print Assumptions C72_training.

(** What the test file gets too much, the training file gets too little: it may be empty although there are samples enough. *)
Theorem C72_quota_refuted : exists train test samples test_file, (0 < train)%Z /\ Forall storable samples /\
  (test + train <= stored_bytes samples)%Z /\ generate_files train test samples = Some (test_file, []).
Proof.
  exists 4%Z, 1%Z, [B "aaaa"; B "bb"], (stored [B "aaaa"]). split; [reflexivity|]. split; [|split; [vm_compute; discriminate|reflexivity]].
  repeat constructor; try (intros [H|H]; [discriminate|]; repeat (destruct H as [H|H]; try discriminate); try contradiction); try discriminate.
  all: apply utf8_ok_spec; reflexivity.
Qed.
(** A sample with the character NUL comes back as two, an empty one not at all. *)
Theorem C72_nul_refuted : exists samples test_file, Forall Utf8 samples /\ generate_files 0 10 samples = Some (test_file, []) /\
  file_samples test_file = Ok [B "a"; B "b"; B "c"] /\ samples = [B "a" ++ [x00] ++ B "b"; []; B "c"].
Proof.
  exists [B "a" ++ [x00] ++ B "b"; []; B "c"], (B "a" ++ [x00] ++ B "b" ++ [x00; x00] ++ B "c" ++ [x00]). split; [|split; [reflexivity|split; reflexivity]].
  repeat constructor; apply utf8_ok_spec; reflexivity.
Qed.
(** The function for Chinese Markdown never writes a sample: it fails at the first one. *)
Theorem C72_markdown_fails : forall train test samples, samples <> [] -> (0 < test \/ 0 < test + train)%Z -> generate_markdown train test samples = None.
Proof.
  intros train test [|s samples] Hs Hq; [congruence|]. unfold generate_markdown. cbn [write_samples].
  change (existsb (fun k => beqs k "test") markdown_splits) with false. change (existsb (fun k => beqs k "train") markdown_splits) with false.
  destruct (Z.ltb_spec 0 test); [reflexivity|]. destruct (Z.ltb_spec 0 (test + train)); [reflexivity|lia].
Qed.
Print Assumptions C72_markdown_fails.
Example C72_example : generate_files 4 3 [B "abc"; B "de"; B "f"; B "g"] = Some (stored [B "abc"], stored [B "de"]) /\
  file_samples (stored [B "abc"]) = Ok [B "abc"] /\ file_samples (stored [B "de"]) = Ok [B "de"].
Proof. repeat split; reflexivity. Qed.

(** ** Counting tokens *)
Lemma count_one fs id : id < length fs -> let fs' := firstn id fs ++ S (nth id fs 0) :: skipn (S id) fs in
  length fs' = length fs /\ forall j, nth j fs' 0 = nth j fs 0 + (if Nat.eq_dec id j then 1 else 0).
Proof.
  revert id. induction fs as [|f fs IH]; intros [|id] H; cbn [length] in H; try lia.
  - cbn [firstn skipn app nth length]. split; [reflexivity|]. intros [|j]; cbn [nth]; [destruct (Nat.eq_dec 0 0); lia|destruct (Nat.eq_dec 0 (S j)); lia].
  - destruct (IH id ltac:(lia)) as [H1 H2]. cbn [firstn skipn app nth length] in *. split; [now rewrite H1|]. intros [|j]; cbn [nth]; [destruct (Nat.eq_dec (S id) 0); lia|]. rewrite H2.
    destruct (Nat.eq_dec id j), (Nat.eq_dec (S id) (S j)); lia.
Qed.
Lemma count_tokens_ok tokens : forall fs fs', count_tokens fs tokens = Some fs' ->
  length fs' = length fs /\ Forall (fun id => id < length fs) tokens /\ forall j, nth j fs' 0 = nth j fs 0 + uses tokens j.
Proof.
  unfold count_tokens, uses. induction tokens as [|id tokens IH]; intros fs fs' H; cbn [fold_left] in H.
  - injection H as <-. splits; auto.
  - destruct (Nat.ltb_spec id (length fs)) as [Hlt|Hge].
    + destruct (@count_one _ _ Hlt) as [H1 H2]. apply IH in H as (H3 & H4 & H5). rewrite H1 in H3, H4. splits; [exact H3|now constructor|]. intros j. rewrite H5, H2. cbn [count_occ].
      destruct (Nat.eq_dec id j); lia.
    + exfalso. clear -H. induction tokens; [discriminate|auto].
Qed.
Lemma count_tokens_total tokens : forall fs, Forall (fun id => id < length fs) tokens -> exists fs', count_tokens fs tokens = Some fs'.
Proof.
  unfold count_tokens. induction tokens as [|id tokens IH]; intros fs H; cbn [fold_left]; [eauto|]. inversion H as [|? ? H1 H2]; subst.
  apply Nat.ltb_lt in H1 as H1'. rewrite H1'. apply IH. destruct (@count_one _ _ H1) as [-> _]. exact H2.
Qed.
Lemma uses_app a b j : uses (a ++ b) j = uses a j + uses b j.
Proof. apply count_occ_app. Qed.
Definition tokens_of (encode : bytes -> list nat) (contents : bytes) : list nat := flat_map encode (evaluated_samples contents).
Lemma evaluate_files_ok encode files : forall fs reports fs', evaluate_files encode files fs = Some (reports, fs') ->
  length fs' = length fs /\ Forall (fun id => id < length fs) (flat_map (tokens_of encode) files) /\ (forall j, nth j fs' 0 = nth j fs 0 + uses (flat_map (tokens_of encode) files) j) /\
  map num_tokens reports = map (fun c => length (tokens_of encode c)) files.
Proof.
  induction files as [|c files IH]; intros fs reports fs' H; cbn [evaluate_files] in H.
  - injection H as <- <-. splits; auto. constructor.
  - unfold evaluate_file in H. fold (tokens_of encode c) in H. destruct (count_tokens fs (tokens_of encode c)) as [fs1|] eqn:E; [|discriminate].
    destruct (length (tokens_of encode c) =? 0); [discriminate|]. destruct (evaluate_files encode files fs1) as [[rs fs2]|] eqn:E2; [|discriminate]. cbn [option_map fst snd] in H. injection H as <- <-.
    apply count_tokens_ok in E as (H1 & H2 & H3). apply IH in E2 as (H4 & H5 & H6 & H7). rewrite H1 in *. splits; auto.
    + cbn [flat_map]. apply Forall_app. auto.
    + intros j. cbn [flat_map]. rewrite H6, H3, uses_app. lia.
    + cbn [map num_tokens]. now rewrite H7.
Qed.
Lemma evaluate_files_error encode files : forall fs, evaluate_files encode files fs = None <->
  exists c, In c files /\ (tokens_of encode c = [] \/ exists id, In id (tokens_of encode c) /\ length fs <= id).
Proof.
  induction files as [|c files IH]; intros fs; cbn [evaluate_files].
  - split; [discriminate|intros (c & [] & _)].
  - unfold evaluate_file. fold (tokens_of encode c). destruct (count_tokens fs (tokens_of encode c)) as [fs1|] eqn:E.
    + apply count_tokens_ok in E as (H1 & H2 & _). rewrite Forall_forall in H2. destruct (Nat.eqb_spec (length (tokens_of encode c)) 0) as [H0|H0].
      * split; [intros _|reflexivity]. exists c. split; [now left|left]. now destruct (tokens_of encode c).
      * assert (HI := IH fs1). rewrite H1 in HI. destruct (evaluate_files encode files fs1) as [[rs fs2]|]; cbn [option_map].
        -- split; [discriminate|]. intros (c' & [<-|Hc] & H).
           ++ destruct H as [H|(id & Hid & H)]; [now rewrite H in H0|]. specialize (H2 id Hid). lia.
           ++ assert (Hn : Some (rs, fs2) = None) by (apply HI; eauto). discriminate.
        -- split; [intros _|reflexivity]. destruct (proj1 HI eq_refl) as (c' & Hc & H). exists c'. split; [now right|exact H].
    + split; [intros _|reflexivity]. exists c. split; [now left|right]. destruct (Forall_dec (fun id => id < length fs) (fun id => lt_dec id (length fs)) (tokens_of encode c)) as [HF|HF].
      * destruct (@count_tokens_total _ _ HF) as (fs' & E'). congruence.
      * apply neg_Forall_Exists_neg in HF; [|intros x; destruct (lt_dec x (length fs)); auto]. apply Exists_exists in HF as (id & Hid & Hge). exists id. split; [exact Hid|lia].
Qed.
Lemma list_sum_app a b : list_sum (a ++ b) = list_sum a + list_sum b.
Proof. induction a as [|x a IH]; simpl; lia. Qed.
Lemma sum_slices b n (l : list nat) : list_sum (map (fun i => list_sum (firstn b (skipn (i * b) l))) (seq 0 n)) = list_sum (firstn (n * b) l).
Proof.
  induction n as [|n IH]; [reflexivity|]. rewrite seq_S, map_app, list_sum_app, IH. cbn [map list_sum fold_right plus]. rewrite Nat.add_0_r.
  replace (S n * b) with (n * b + b) by lia. rewrite <- list_sum_app. f_equal. clear IH. generalize (n * b). clear n. intros m. revert l.
  induction m as [|m IH]; intros l; [reflexivity|]. destruct l as [|x l]; [simpl; now rewrite firstn_nil|]. cbn [skipn firstn plus app]. f_equal. apply IH.
Qed.
Lemma sum_uses tokens n : Forall (fun id => id < n) tokens -> list_sum (map (uses tokens) (seq 0 n)) = length tokens.
Proof.
  intros HF. induction HF as [|id tokens Hid HF IH].
  - unfold uses. simpl. induction (seq 0 n); simpl; auto.
  - cbn [length]. rewrite <- IH. clear IH HF. assert (H : forall l, NoDup l -> list_sum (map (uses (id :: tokens)) l) = (if in_dec Nat.eq_dec id l then 1 else 0) + list_sum (map (uses tokens) l)).
    { induction 1 as [|j l Hj _ IH]; [reflexivity|]. cbn [map list_sum fold_right]. change (fold_right plus 0) with list_sum. rewrite IH. unfold uses at 1 3. cbn [count_occ].
      destruct (Nat.eq_dec id j) as [->|Hij]; destruct (in_dec Nat.eq_dec _ l), (in_dec Nat.eq_dec _ (j :: l)) as [Hi|Hi]; simpl in *; try tauto; try lia; exfalso; intuition congruence. }
    rewrite H by apply seq_NoDup. destruct (in_dec Nat.eq_dec id (seq 0 n)) as [_|Hn]; [reflexivity|]. exfalso. apply Hn. apply in_seq. lia.
Qed.
Lemma sum_perm (f : nat -> nat) a b : Permutation a b -> list_sum (map f a) = list_sum (map f b).
Proof. induction 1; simpl in *; lia. Qed.
Lemma sorted_split (l : list nat) n : StronglySorted (fun x y => y <= x) l -> forall x y, In x (firstn n l) -> In y (skipn n l) -> y <= x.
Proof.
  intros HS. revert n. induction HS as [|a l HS IH HF]; intros n x y Hx Hy; [destruct n; destruct Hx|]. destruct n as [|n]; [destruct Hx|]. cbn [firstn skipn] in *.
  destruct Hx as [<-|Hx]; [|eauto]. rewrite Forall_forall in HF. apply HF. eapply In_skipn; eauto.
Qed.

(** ** C73: the fifty numbers of an evaluation are the uses of the ids from the most to the least frequent, in groups of [vocab_size / 50];
    the remaining [vocab_size mod 50] ids, which are the rarest, are left out. *)
Theorem C73_buckets : forall encode vocab_size files reports bs, evaluation encode vocab_size files (Some (reports, bs)) ->
  let tokens := flat_map (tokens_of encode) files in
  exists kept lost, Permutation (kept ++ lost) (seq 0 vocab_size) /\ length lost = vocab_size mod 50 /\
    StronglySorted (fun x y => uses tokens y <= uses tokens x) (kept ++ lost) /\
    bs = map (fun i => list_sum (map (uses tokens) (firstn (vocab_size / 50) (skipn (i * (vocab_size / 50)) kept)))) (seq 0 50) /\
    list_sum bs = list_sum (map (uses tokens) kept) /\
    list_sum bs + list_sum (map (uses tokens) lost) = list_sum (map num_tokens reports) /\
    map num_tokens reports = map (fun c => length (tokens_of encode c)) files.
Proof.
  intros encode vocab_size files reports bs H tokens. inversion H as [reports' frequencies sorted HE HP HS [E1 E2]|]; subst reports' bs. apply evaluate_files_ok in HE as (H1 & H2 & H3 & H4). rewrite repeat_length in H1, H2.
  assert (Ef : frequencies = map (uses tokens) (seq 0 vocab_size)).
  { apply nth_ext with (d := 0) (d' := 0); [now rewrite map_length, seq_length|]. intros j Hj. rewrite H1 in Hj. rewrite H3, nth_repeat. simpl.
    rewrite nth_indep with (d' := uses tokens 0) by now rewrite map_length, seq_length. rewrite map_nth, seq_nth by exact Hj. reflexivity. }
  rewrite Ef in HP. apply Permutation_sym, Permutation_map_inv in HP as (ids & Es & Hids). set (b := vocab_size / 50). set (c := 50 * b).
  assert (Hlen : length ids = vocab_size) by (rewrite <- (Permutation_length Hids); apply seq_length).
  assert (Hdm := Nat.div_mod vocab_size 50 ltac:(lia)). fold b c in Hdm.
  exists (firstn c ids), (skipn c ids). rewrite firstn_skipn.
  assert (Hb : buckets vocab_size sorted = map (fun i => list_sum (map (uses tokens) (firstn b (skipn (i * b) (firstn c ids))))) (seq 0 50)).
  { unfold buckets. change num_buckets with 50. fold b. apply map_ext_in. intros i Hi. apply in_seq in Hi. rewrite Es, skipn_map, firstn_map. do 2 f_equal.
    rewrite skipn_firstn_comm, firstn_firstn. f_equal. assert (i * b + b <= c) by (unfold c; nia). lia. }
  assert (Hs : list_sum (buckets vocab_size sorted) = list_sum (map (uses tokens) (firstn c ids))).
  { unfold buckets. change num_buckets with 50. fold b. rewrite sum_slices. fold c. now rewrite Es, firstn_map. }
  splits.
  - now symmetry.
  - rewrite skipn_length, Hlen. lia.
  - rewrite Es in HS. clear -HS. induction ids as [|i ids IH]; [constructor|]. cbn [map] in HS. apply StronglySorted_inv in HS as [HS HF]. constructor; [auto|].
    rewrite Forall_map in HF. exact HF.
  - exact Hb.
  - exact Hs.
  - rewrite Hs, <- list_sum_app, <- map_app, firstn_skipn, H4. transitivity (length tokens).
    + unfold tokens at 2. rewrite <- (sum_uses H2). now apply sum_perm, Permutation_sym.
    + unfold tokens. clear. induction files as [|f files IH]; [reflexivity|]. cbn [flat_map map list_sum fold_right]. change (fold_right plus 0) with list_sum. rewrite app_length, IH. reflexivity.
  - exact H4.
Qed.
Print Assumptions C73_buckets.
(** The characters that are reported are those of the samples, not their bytes. *)
Lemma evaluate_files_chars encode files : forall fs reports fs', evaluate_files encode files fs = Some (reports, fs') ->
  Forall2 (fun c r => forall texts, Forall (Forall scalar) texts -> evaluated_samples c = map encode_string texts -> num_chars r = length (List.concat texts)) files reports.
Proof.
  induction files as [|c files IH]; intros fs reports fs' H; cbn [evaluate_files] in H.
  - injection H as <- <-. constructor.
  - unfold evaluate_file in H. destruct (count_tokens fs (flat_map encode (evaluated_samples c))) as [fs1|] eqn:E; [|discriminate].
    destruct (length _ =? 0); [discriminate|]. destruct (evaluate_files encode files fs1) as [[rs fs2]|] eqn:E2; [|discriminate]. cbn [option_map fst snd] in H. injection H as <- <-.
    constructor; [|eapply IH; exact E2]. cbn [num_chars]. intros texts HF ->. induction HF as [|t texts Ht HF IHt]; [reflexivity|].
    cbn [map fold_right List.concat]. rewrite app_length, IHt, char_indices_spec by exact Ht. f_equal. generalize 0. clear. induction t as [|x t IH]; intros i; [reflexivity|]. cbn [offsets length]. f_equal. apply IH.
Qed.
Theorem C73_characters : forall encode vocab_size files reports bs, evaluation encode vocab_size files (Some (reports, bs)) ->
  Forall2 (fun c r => forall texts, Forall (Forall scalar) texts -> evaluated_samples c = map encode_string texts -> num_chars r = length (List.concat texts)) files reports.
Proof. intros encode vocab_size files reports bs H. inversion H as [reports' frequencies sorted HE HP HS [E1 E2]|]; subst reports' bs. eapply evaluate_files_chars; exact HE. Qed.
Print Assumptions C73_characters.
Example C73_characters_example : let texts := [[0xE9; 0x4E2D]; [0x61]; []]%N in Forall (Forall scalar) texts /\
  evaluated_samples (stored [encode_string [0xE9; 0x4E2D]; B "a"]%N) = map encode_string texts /\ length (List.concat texts) = 3 /\
  exists bs, evaluation (fun s => match s with [] => [] | _ => [0] end) 50 [stored [encode_string [0xE9; 0x4E2D]; B "a"]%N] (Some ([Report 2 3], bs)).
Proof.
  cbv zeta. splits; [repeat (apply Forall_cons || apply Forall_nil); unfold scalar; lia|reflexivity|reflexivity|].
  exists (buckets 50 (2 :: repeat 0 49)). apply evaluation_ok with (frequencies := 2 :: repeat 0 49); [vm_compute; reflexivity|reflexivity|].
  constructor; [generalize 49; induction n; simpl; constructor; [exact IHn|]|]; apply Forall_forall; intros x Hx; apply repeat_spec in Hx; lia.
Qed.
(** The uses of all tokens are not the sum of the fifty numbers, and with less than fifty ids all of these are 0. *)
Theorem C73_all_counted_refuted : exists encode vocab_size files reports bs, evaluation encode vocab_size files (Some (reports, bs)) /\
  list_sum bs <> list_sum (map num_tokens reports).
Proof.
  exists (fun _ => seq 0 51), 51, [B "x"], [Report 51 1], (repeat 1 50). split; [|vm_compute; discriminate].
  change (repeat 1 50) with (buckets 51 (repeat 1 51)). apply evaluation_ok with (frequencies := repeat 1 51); [vm_compute; reflexivity|reflexivity|]. generalize 51. induction n; simpl; constructor; [exact IHn|].
  apply Forall_forall. intros x Hx. apply repeat_spec in Hx. lia.
Qed.
Theorem C73_small : forall encode vocab_size files reports bs, vocab_size < 50 -> evaluation encode vocab_size files (Some (reports, bs)) -> bs = repeat 0 50.
Proof. intros encode vocab_size files reports bs Hv H. inversion H; subst. unfold buckets. now rewrite (Nat.div_small vocab_size num_buckets Hv). Qed.
(** There is no report when a file has no tokens (a division by 0), or an id is out of range. *)
Theorem C73_error : forall encode vocab_size files, evaluation encode vocab_size files None <->
  exists c, In c files /\ (tokens_of encode c = [] \/ exists id, In id (tokens_of encode c) /\ vocab_size <= id).
Proof.
  intros encode vocab_size files. assert (HI := @evaluate_files_error encode files (repeat 0 vocab_size)). rewrite repeat_length in HI. rewrite <- HI.
  split; [intros H; now inversion H|apply evaluation_error].
Qed.
Print Assumptions C73_error.

(** The samples that are evaluated: those of the file, with other line ends, and usually an empty one at the end. *)
Lemma universal_newlines_spec s : Lines s (universal_newlines s).
Proof.
  remember (length s) as n eqn:Hn. revert s Hn. induction n as [n IH] using lt_wf_ind. intros [|b s] Hn; [constructor|]. cbn [length] in Hn. cbn [universal_newlines].
  destruct (Byte.eqb b x0d) eqn:Eb.
  - apply Byte.byte_dec_bl in Eb. subst b. destruct s as [|c s]; [apply Lines_cr; [discriminate|constructor]|]. destruct (Byte.eqb c x0a) eqn:Ec.
    + apply Byte.byte_dec_bl in Ec. subst c. apply Lines_crlf. apply (IH (length s)); [simpl in Hn; lia|reflexivity].
    + apply Lines_cr; [intros s' [= -> _]; now rewrite (Byte.byte_dec_lb eq_refl) in Ec|]. apply (IH (length (c :: s))); [lia|reflexivity].
  - apply Lines_other; [intros ->; now rewrite (Byte.byte_dec_lb eq_refl) in Eb|]. apply (IH (length s)); [lia|reflexivity].
Qed.
Lemma Lines_fun s t t' : Lines s t -> Lines s t' -> t = t'.
Proof.
  intros H. revert t'. induction H as [|s t H IH|s t Hs H IH|b s t Hb H IH]; intros t' H'; inversion H'; subst; f_equal; auto; try congruence.
  - exfalso. eapply H1. reflexivity.
  - exfalso. eapply Hs. reflexivity.
Qed.
Theorem C73_samples : forall contents samples, evaluated_samples contents = samples <-> exists text, Lines contents text /\ Parts x00 text samples.
Proof.
  intros contents samples. unfold evaluated_samples. split.
  - intros <-. exists (universal_newlines contents). split; [apply universal_newlines_spec|]. now apply split_on_Parts.
  - intros (text & HL & HP). rewrite (Lines_fun (universal_newlines_spec contents) HL). now apply split_on_Parts.
Qed.
Print Assumptions C73_samples.
Theorem C73_datagen : forall samples, Forall (fun s => ~ In x00 s /\ ~ In x0d s) samples -> evaluated_samples (stored samples) = samples ++ [[]].
Proof.
  intros samples HF. apply C73_samples. exists (stored samples). split.
  - assert (H : ~ In x0d (stored samples)).
    { unfold stored. rewrite in_flat_map. intros (s & Hs & Hin). rewrite Forall_forall in HF. destruct (HF s Hs) as [_ H]. apply in_app_iff in Hin as [Hin|[Hin|[]]]; [auto|discriminate]. }
    revert H. generalize (stored samples). induction b as [|b s IH]; intros H; [constructor|]. apply Lines_other; [intros ->; apply H; now left|]. apply IH. intros Hin. apply H. now right.
  - apply Parts_stored. eapply Forall_impl; [|exact HF]. intros s Hs. apply Hs.
Qed.
(** The program that is evaluated is trained on other texts when the files have CR LF. *)
Theorem C73_same_text_refuted : exists contents samples, file_samples contents = Ok samples /\ evaluated_samples contents <> samples /\
  evaluated_samples contents <> samples ++ [[]].
Proof. exists (stored [[x61; x0d; x0a; x62]]), [[x61; x0d; x0a; x62]]. split; [reflexivity|]. split; discriminate. Qed.
Example C73_example : exists bs, evaluation (fun s => map (fun b => N.to_nat (Byte.to_N b)) s) 100 [B "abacab" ++ [x00]] (Some ([Report 6 6], bs)) /\ firstn 3 bs = [5; 1; 0].
Proof.
  exists (buckets 100 (3 :: 2 :: 1 :: repeat 0 97)). split; [|reflexivity].
  eapply evaluation_ok; [reflexivity| |].
  - match goal with |- Permutation ?a _ => let x := eval vm_compute in (firstn 97 a) in let y := eval vm_compute in (skipn 97 a) in
      change a with (x ++ y) end. change (3 :: 2 :: 1 :: repeat 0 97) with ([3; 2; 1] ++ repeat 0 97). apply Permutation_app_comm.
  - assert (H : forall n, StronglySorted (fun x y => y <= x) (repeat 0 n)).
    { induction n as [|n IH]; [constructor|]. simpl. constructor; [exact IH|]. apply Forall_forall. intros x Hx. apply repeat_spec in Hx. lia. }
    assert (HF : forall k, Forall (fun y => y <= k) (repeat 0 97)) by (intros k; apply Forall_forall; intros x Hx; apply repeat_spec in Hx; lia).
    apply SSorted_cons; [apply SSorted_cons; [apply SSorted_cons; [apply H|apply HF]|]|].
    + constructor; [lia|apply HF].
    + constructor; [lia|]. constructor; [lia|apply HF].
Qed.
(** scripts/find.py *)
Lemma begins_with_spec needle : forall s, begins_with needle s = true <-> exists r, s = needle ++ r.
Proof.
  induction needle as [|a needle IH]; intros s; simpl; [split; eauto|]. destruct s as [|b s]; [split; [discriminate|intros (r & E); discriminate]|].
  rewrite Bool.andb_true_iff, N.eqb_eq, IH. split; [intros (-> & r & ->); eauto|intros (r & E); injection E as -> ->; eauto].
Qed.
Lemma count_from_skip needle skip : forall s, count_from skip needle s = count_from 0 needle (skipn skip s).
Proof. induction skip as [|skip IH]; intros [|c s]; try reflexivity. simpl skipn. rewrite <- IH. reflexivity. Qed.
Lemma Found_zero needle s k : needle <> [] -> length s = 0 -> Found needle s k -> k = 0.
Proof. intros Hn Hs H. destruct H as [|a s k _]; [reflexivity|]. rewrite !app_length in Hs. destruct needle; [congruence|simpl in Hs; lia]. Qed.
Lemma Found_skip needle a s k : Found needle s k -> Found needle (a ++ s) k.
Proof. intros [|b s' k' H]; [constructor|]. rewrite app_assoc. now constructor. Qed.
Lemma Found_drop needle n : forall s k, Found needle s (S k) -> n <= length needle -> Found needle (skipn n s) k.
Proof.
  intros s k H Hn. inversion H as [|a s' k' H' E1 E2]; subst. rewrite app_assoc, skipn_app. rewrite app_length. replace (n - (length a + length needle)) with 0 by lia. rewrite skipn_O. now apply Found_skip.
Qed.
Lemma str_count_spec needle s : needle <> [] -> Most needle s (str_count needle s).
Proof.
  intros Hn. unfold str_count. destruct needle as [|a needle0] eqn:En; [congruence|]. rewrite <- En in *. clear a needle0 En.
  assert (H : forall n s, length s <= n -> Most needle s (count_from 0 needle s)); [|exact (H (length s) s (le_n _))]. clear s.
  induction n as [|n IH]; intros s Hs.
  - destruct s; [|simpl in Hs; lia]. split; [constructor|]. intros j Hj. rewrite (@Found_zero needle [] j Hn eq_refl Hj). reflexivity.
  - destruct s as [|c s]; [split; [constructor|]; intros j Hj; rewrite (@Found_zero needle [] j Hn eq_refl Hj); reflexivity|]. cbn [count_from].
    destruct (begins_with needle (c :: s)) eqn:Eb.
    + rewrite count_from_skip. apply begins_with_spec in Eb as (r & Er). assert (El : 1 <= length needle) by (destruct needle; [congruence|simpl; lia]).
      assert (Es : skipn (length needle - 1) s = r). { assert (E := f_equal (skipn (length needle)) Er). rewrite skipn_app, skipn_all, Nat.sub_diag in E. simpl in E. replace (length needle) with (S (length needle - 1)) in E by lia. exact E. }
      rewrite Es. assert (Hr : length r <= n) by (rewrite <- Es, skipn_length; simpl in Hs; lia). destruct (IH r Hr) as [H1 H2]. split.
      * rewrite Er. exact (Found_one [] H1).
      * intros [|j] Hj; [lia|]. apply le_n_S, H2. replace r with (skipn (length needle) (c :: s)); [now apply Found_drop|]. rewrite Er, skipn_app, skipn_all, Nat.sub_diag. reflexivity.
    + destruct (IH s ltac:(simpl in Hs; lia)) as [H1 H2]. split; [exact (Found_skip [c] H1)|]. intros j Hj. apply H2. inversion Hj as [|a s' j' Hj' E1 E2]; subst; [constructor|].
      destruct a as [|c' a]; [|injection E1 as _ <-; now constructor]. simpl app in E1. rewrite <- E1 in Eb. assert (Ht : begins_with needle (needle ++ s') = true) by (apply begins_with_spec; eauto). congruence.
Qed.
Lemma chars_scalar s : Forall scalar s -> chars (encode_string s) = s.
Proof. intros H. pose proof (chars_encode [] H) as E. now rewrite !app_nil_r in E. Qed.
Lemma Most_fun needle s j k : Most needle s j -> Most needle s k -> j = k.
Proof. intros [H1 H2] [H3 H4]. apply Nat.le_antisymm; auto. Qed.
(** The script reports, over all parts between NULs of all files, the number of occurrences that do not overlap (the most there can be in each part), of parts with an occurrence, and of parts;
    it fails if there is no file or a part is not UTF-8. *)
Theorem C73_find : forall needle files occurrences by_sample samples, needle <> [] ->
  find_samples needle files = Some (occurrences, by_sample, samples) <->
  files <> [] /\ exists parts texts counts, Forall2 (Parts x00) files parts /\ Forall2 (fun s cs => Forall scalar cs /\ s = encode_string cs) (List.concat parts) texts /\ Forall2 (Most needle) texts counts /\
    occurrences = list_sum counts /\ samples = length counts /\ by_sample + count_occ Nat.eq_dec counts 0 = samples.
Proof.
  intros needle files occurrences by_sample samples Hn. unfold find_samples. rewrite flat_map_concat_map.
  assert (HB : forall l, length (filter (fun c => 0 <? c) l) + count_occ Nat.eq_dec l 0 = length l).
  { induction l as [|c l IH]; [reflexivity|]. simpl. destruct (Nat.ltb_spec 0 c); destruct (Nat.eq_dec c 0); simpl; lia. }
  assert (HF : forall l, Forall2 (Parts x00) l (map (split_on x00) l)) by (induction l; simpl; constructor; auto; now apply split_on_Parts).
  set (parts := map (split_on x00) files). split.
  - destruct (forallb utf8_ok (List.concat parts)) eqn:Eu; [|discriminate]. intros E. assert (Hne : files <> []) by (intros Ef; rewrite Ef in E; discriminate).
    assert (E' : Some (list_sum (map (fun s => str_count needle (chars s)) (List.concat parts)), length (filter (fun c => 0 <? c) (map (fun s => str_count needle (chars s)) (List.concat parts))), length (List.concat parts)) = Some (occurrences, by_sample, samples)) by (destruct files; [congruence|exact E]). clear E. rename E' into E.
    assert (E1 : occurrences = list_sum (map (fun s => str_count needle (chars s)) (List.concat parts)) /\ by_sample = length (filter (fun c => 0 <? c) (map (fun s => str_count needle (chars s)) (List.concat parts))) /\ samples = length (List.concat parts)) by (repeat split; congruence).
    destruct E1 as (-> & -> & ->). clear E. split; [exact Hne|]. exists parts, (map chars (List.concat parts)), (map (fun s => str_count needle (chars s)) (List.concat parts)). splits.
    + apply HF.
    + rewrite forallb_forall in Eu. clear - Eu. induction (List.concat parts) as [|s l IH]; simpl; constructor; [|apply IH; intros; apply Eu; now right].
      destruct (proj1 (utf8_ok_spec s) (Eu s (or_introl eq_refl))) as (cs & Hcs & ->). rewrite chars_scalar by exact Hcs. auto.
    + clear - Hn. induction (List.concat parts) as [|s l IH]; simpl; constructor; [now apply str_count_spec|exact IH].
    + reflexivity.
    + now rewrite map_length.
    + rewrite HB, map_length. reflexivity.
  - intros (Hne & parts' & texts & counts & HP & HT & HC & -> & -> & Hb). assert (Ep : parts' = parts). { unfold parts. clear - HP. induction HP as [|f p files parts H _ IH]; simpl; [reflexivity|]. f_equal; [symmetry; now apply split_on_Parts|exact IH]. }
    subst parts'. assert (Eu : forallb utf8_ok (List.concat parts) = true). { apply forallb_forall. intros s Hs. apply utf8_ok_spec. clear - HT Hs. induction HT as [|x cs l texts (H1 & H2) _ IH]; [destruct Hs|]. destruct Hs as [<-|Hs]; [exists cs; auto|auto]. }
    rewrite Eu. assert (Ec : map (fun s => str_count needle (chars s)) (List.concat parts) = counts).
    { clear - Hn HT HC. revert counts HC. induction HT as [|s cs l texts (H1 & ->) _ IH]; intros counts HC; inversion HC as [|? k ? counts' Hk HC']; subst; [reflexivity|]. simpl. rewrite chars_scalar by exact H1. f_equal; [exact (Most_fun (str_count_spec cs Hn) Hk)|auto]. }
    rewrite Ec. assert (El : length (List.concat parts) = length counts) by (rewrite <- Ec, map_length; reflexivity). rewrite El. specialize (HB counts). destruct files; [congruence|]. do 2 f_equal. f_equal. lia.
Qed.
Print Assumptions C73_find.
(** But the percentage in the last line, called that of the samples, is of the occurrences. *)
Theorem C73_percentage_refuted : exists needle files f, find_samples needle files = Some f /\ let '(part, whole) := total_percentage f in 100 * whole < part.
Proof. exists [97%N], [B "aa"], (2, 1, 1). split; [reflexivity|]. cbn. lia. Qed.
(** "aaa" has one occurrence of "aa", and a file "aaa NUL NUL x" three parts. *)
Example C73_find_example : find_samples [97; 97]%N [B "aaa" ++ [x00; x00; x78]; B "baaaa"] = Some (3, 2, 4).
Proof. reflexivity. Qed.

(** ** Dictionaries *)
Lemma NoDup_app_disjoint {A} (a b : list A) : NoDup a -> NoDup b -> (forall x, In x a -> ~ In x b) -> NoDup (a ++ b).
Proof.
  intros Ha Hb H. induction Ha as [|x a Hx Ha IH]; [exact Hb|]. simpl. constructor; [|apply IH; intros y Hy; apply H; now right].
  rewrite in_app_iff. intros [Hin|Hin]; [contradiction|]. eapply H; [now left|exact Hin].
Qed.
Lemma dict_set_keys d k v x : In x (map fst (dict_set d k v)) <-> x = k \/ In x (map fst d).
Proof.
  induction d as [|[k' v'] d IH]; simpl; [intuition|]. destruct (bytes_eqb_spec k k') as [->|Hk]; simpl; [intuition|]. rewrite IH. intuition.
Qed.
Lemma dict_set_NoDup d k v : NoDup (map fst d) -> NoDup (map fst (dict_set d k v)).
Proof.
  induction d as [|[k' v'] d IH]; simpl; intros HN; [repeat constructor; intros []|]. inversion HN as [|? ? H1 H2]; subst.
  destruct (bytes_eqb_spec k k') as [->|Hk]; simpl; constructor; auto. rewrite dict_set_keys. intros [->|H]; [congruence|contradiction].
Qed.
Lemma dict_set_In d k v x r : NoDup (map fst d) -> In (x, r) (dict_set d k v) <-> x = k /\ r = v \/ x <> k /\ In (x, r) d.
Proof.
  induction d as [|[k' v'] d IH]; simpl; intros HN.
  - split; [intros [[= <- <-]|[]]; auto|intros [[-> ->]|[_ []]]; auto].
  - inversion HN as [|? ? H1 H2]; subst. destruct (bytes_eqb_spec k k') as [->|Hk]; simpl.
    + split.
      * intros [[= <- <-]|H]; [auto|]. right. split; [|auto]. intros ->. apply H1. now apply (in_map fst) in H.
      * intros [[-> ->]|[Hx [[= <- <-]|H]]]; auto. congruence.
    + rewrite (IH H2). split.
      * intros [[= <- <-]|[H|[Hx H]]]; [right; split; [congruence|auto]|auto|auto].
      * intros [H|[Hx [H|H]]]; auto.
Qed.
Lemma byte_value_lt b : byte_value b < 256.
Proof. unfold byte_value. assert (H := Byte.to_N_bounded b). lia. Qed.
Lemma byte_of_value b : byte_of_nat (byte_value b) = b.
Proof. unfold byte_of_nat, byte_value. rewrite N2Nat.id, Byte.of_to_N. reflexivity. Qed.
Lemma value_of_byte i : i < 256 -> byte_value (byte_of_nat i) = i.
Proof.
  intros Hi. unfold byte_of_nat, byte_value. destruct (Byte.of_N (N.of_nat i)) as [b|] eqn:E.
  - apply Byte.to_of_N in E. rewrite E. lia.
  - apply Byte.of_N_None_iff in E. lia.
Qed.
Lemma with_bytes_spec ranks : NoDup (map fst ranks) -> NoDup (map fst (with_bytes ranks)) /\
  forall k r, In (k, r) (with_bytes ranks) <-> (exists b, k = [b] /\ r = byte_value b) \/ length k <> 1 /\ In (k, r) ranks.
Proof.
  intros HN. unfold with_bytes.
  assert (H : forall n, n <= 256 -> NoDup (map fst (fold_left (fun d i => dict_set d [byte_of_nat i] i) (seq 0 n) ranks)) /\
    forall k r, In (k, r) (fold_left (fun d i => dict_set d [byte_of_nat i] i) (seq 0 n) ranks) <->
      (exists b, k = [b] /\ r = byte_value b /\ r < n) \/ (forall b, k = [b] -> n <= byte_value b) /\ In (k, r) ranks).
  { induction n as [|n IH]; intros Hn.
    - split; [exact HN|]. intros k r. simpl. split; [intros H; right; split; [lia|exact H]|intros [(b & _ & _ & H)|[_ H]]; [lia|exact H]].
    - destruct (IH ltac:(lia)) as [H1 H2]. rewrite seq_S, fold_left_app. cbn [fold_left plus]. split; [now apply dict_set_NoDup|]. intros k r. rewrite (@dict_set_In _ _ _ k r H1), H2. split.
      + intros [[-> ->]|[Hk [(b & -> & Hr & Hlt)|[Hb H]]]].
        * left. exists (byte_of_nat n). rewrite value_of_byte by lia. splits; auto.
        * left. exists b. splits; auto.
        * right. split; [|exact H]. intros b ->. specialize (Hb b eq_refl). assert (byte_value b <> n); [|lia]. intros <-. apply Hk. now rewrite byte_of_value.
      + intros [(b & -> & -> & Hlt)|[Hb H]].
        * destruct (Nat.eq_dec (byte_value b) n) as [<-|Hne]; [left; now rewrite byte_of_value|right]. split; [|left; exists b; splits; auto; lia].
          intros [= ->]. apply Hne. apply value_of_byte. lia.
        * right. split; [|right; split; [intros b Hk; specialize (Hb b Hk); lia|exact H]]. intros ->. specialize (Hb _ eq_refl). rewrite value_of_byte in Hb by lia. lia. }
  destruct (H 256 (le_n _)) as [H1 H2]. split; [exact H1|]. intros k r. rewrite H2. split.
  - intros [(b & Hk & Hr & _)|[Hb Hi]]; [left; eauto|right]. split; [|exact Hi]. intros Hl. destruct k as [|b [|c k]]; try discriminate. specialize (Hb b eq_refl). assert (Hx := byte_value_lt b). lia.
  - intros [(b & Hk & ->)|[Hl Hi]]; [left; exists b; splits; auto using byte_value_lt|right]. split; [|exact Hi]. intros b ->. now simpl in Hl.
Qed.
Lemma with_bytes_keys ranks k : NoDup (map fst ranks) -> In k (map fst ranks) -> In k (map fst (with_bytes ranks)).
Proof.
  intros HN Hin. destruct (@with_bytes_spec _ HN) as [_ H2]. apply in_map_iff in Hin as ((k' & r) & Hk & Hin). cbn [fst] in Hk. subst k'. apply in_map_iff.
  destruct (Nat.eq_dec (length k) 1) as [Hk|Hk].
  - assert (Hb : exists b, k = [b]) by (destruct k as [|b [|c k]]; try discriminate; eauto). destruct Hb as (b & ->). exists ([b], byte_value b). split; [reflexivity|]. apply H2. left. eauto.
  - exists (k, r). split; [reflexivity|]. apply H2. auto.
Qed.
Lemma dict_in_spec d k : dict_in d k = true <-> In k (map fst d).
Proof.
  unfold dict_in. rewrite existsb_exists. split.
  - intros (e & He & H). destruct (bytes_eqb_spec k (fst e)) as [->|]; [|discriminate]. now apply in_map.
  - intros H. apply in_map_iff in H as (e & <- & He). exists e. split; [exact He|]. now destruct (bytes_eqb_spec (fst e) (fst e)).
Qed.
Lemma with_frequent_known decode ids : forall i d, (forall id, In id ids -> exists val, decode id = Some val /\ In val (map fst d)) -> with_frequent decode i ids d = Some d.
Proof.
  induction ids as [|id ids IH]; intros i d H; [reflexivity|]. cbn [with_frequent]. destruct (H id (or_introl eq_refl)) as (val & -> & Hin).
  apply dict_in_spec in Hin. rewrite Hin. apply IH. intros id' Hid. apply H. now right.
Qed.

Lemma with_frequent_spec decode ids : forall i d, NoDup (map fst d) ->
  match with_frequent decode i ids d with
  | None => exists id, In id ids /\ decode id = None
  | Some d' => Forall (fun id => decode id <> None) ids /\ NoDup (map fst d') /\
      forall k r, In (k, r) d' <-> In (k, r) d \/ ~ In k (map fst d) /\ exists j, r = i + j + 256 /\ First decode ids k j
  end.
Proof.
  induction ids as [|id ids IH]; intros i d HN; cbn [with_frequent].
  - splits; auto. intros k r. split; [auto|]. intros [H|[_ (j & _ & (id & H & _) & _)]]; [exact H|]. destruct j; discriminate.
  - destruct (decode id) as [val|] eqn:E; [|exists id; split; [now left|exact E]]. destruct (dict_in d val) eqn:Ed.
    + apply dict_in_spec in Ed. specialize (IH (S i) d HN). destruct (with_frequent decode (S i) ids d) as [d'|]; [|destruct IH as (x & Hx & H); exists x; split; [now right|exact H]].
      destruct IH as (HF & HN' & HI). splits; [constructor; [congruence|exact HF]|exact HN'|]. intros k r. rewrite HI. apply or_iff_compat_l. split.
      * intros [Hk (j & Hr & (x & Hx & Ex) & Hj)]. split; [exact Hk|]. exists (S j). splits; [lia|]. split; [exists x; auto|]. intros [|j'] y Hlt Hy; [|eapply Hj; eauto; lia]. injection Hy as <-. intros Hv. rewrite E in Hv. injection Hv as ->. contradiction.
      * intros [Hk ([|j] & Hr & (x & Hx & Ex) & Hj)]; [injection Hx as <-; rewrite E in Ex; injection Ex as ->; contradiction|]. split; [exact Hk|]. exists j. splits; [lia|].
        split; [exists x; auto|]. intros j' y Hlt Hy. apply (Hj (S j') y); [lia|exact Hy].
    + assert (Hn : ~ In val (map fst d)) by (rewrite <- dict_in_spec; congruence). assert (HN2 : NoDup (map fst (dict_set d val (i + 256)))) by now apply dict_set_NoDup.
      specialize (IH (S i) _ HN2). destruct (with_frequent decode (S i) ids _) as [d'|]; [|destruct IH as (x & Hx & H); exists x; split; [now right|exact H]].
      destruct IH as (HF & HN' & HI). splits; [constructor; [congruence|exact HF]|exact HN'|].
      assert (Hkeys : forall k, In k (map fst (dict_set d val (i + 256))) <-> k = val \/ In k (map fst d)).
      { intros k. split.
        - intros Hk. apply in_map_iff in Hk as ((k' & r) & Hk & Hin). cbn [fst] in Hk. subst k'. apply dict_set_In in Hin; [|exact HN]. destruct Hin as [[-> _]|[_ Hin]]; [now left|right]. now apply (in_map fst) in Hin.
        - intros [-> | Hk].
          + apply (in_map fst _ (val, i + 256)). apply dict_set_In; [exact HN|]. now left.
          + apply in_map_iff in Hk as ((k' & r) & Hk & Hin). cbn [fst] in Hk. subst k'. apply (in_map fst _ (k, r)). apply dict_set_In; [exact HN|]. right. split; [|exact Hin]. intros ->. apply Hn. now apply (in_map fst) in Hin. }
      intros k r. rewrite HI, Hkeys, (@dict_set_In d val (i + 256) k r HN). split.
      * intros [[[-> ->]|[Hk H]]|[Hk (j & Hr & (x & Hx & Ex) & Hj)]].
        -- right. split; [exact Hn|]. exists 0. splits; [lia|]. split; [exists id; auto|]. intros j' y Hlt. lia.
        -- now left.
        -- right. split; [tauto|]. exists (S j). splits; [lia|]. split; [exists x; auto|]. intros [|j'] y Hlt Hy; [|eapply Hj; eauto; lia]. injection Hy as <-. intros Hv. rewrite E in Hv. injection Hv as ->. tauto.
      * intros [H|[Hk ([|j] & Hr & (x & Hx & Ex) & Hj)]].
        -- left. right. split; [|exact H]. intros ->. apply Hn. now apply (in_map fst) in H.
        -- injection Hx as <-. rewrite E in Ex. injection Ex as ->. left. left. split; [reflexivity|lia].
        -- right. split; [intros [-> | H]; [apply (Hj 0 id); [lia|reflexivity|exact E]|contradiction]|]. exists j. splits; [lia|]. split; [exists x; auto|]. intros j' y Hlt Hy. apply (Hj (S j') y); [lia|exact Hy].
Qed.
(** ** C74, in general: convert.py fails exactly if one of the [v] most frequent ids does not stand for a token; it keeps the bytes, the other
    tokens with ranks below [v], and adds a token that the vocabulary has no rank for (a special token) with 256 plus its position. *)
Theorem C74_fails : forall ranks decode sorted_ids v, NoDup (map fst ranks) ->
  truncated ranks decode sorted_ids v = None <-> exists id, In id (firstn v sorted_ids) /\ decode id = None.
Proof.
  intros ranks decode sorted_ids v HN. destruct (@with_bytes_spec _ HN) as [H1 _]. assert (H := @with_frequent_spec decode (firstn v sorted_ids) 0 _ H1). unfold truncated.
  destruct (with_frequent decode 0 (firstn v sorted_ids) (with_bytes ranks)) as [d|]; cbn [option_map]; [|tauto]. destruct H as (HF & _). split; [discriminate|].
  intros (id & Hid & E). rewrite Forall_forall in HF. now apply HF in Hid.
Qed.
Print Assumptions C74_fails.
Theorem C74_any : forall ranks decode sorted_ids v kept, NoDup (map fst ranks) -> truncated ranks decode sorted_ids v = Some kept -> NoDup (map fst kept) /\
  forall k r, In (k, r) kept <-> r < v /\ ((exists b, k = [b] /\ r = byte_value b) \/ length k <> 1 /\ In (k, r) ranks \/
    length k <> 1 /\ ~ In k (map fst ranks) /\ exists i, r = i + 256 /\ First decode sorted_ids k i).
Proof.
  intros ranks decode sorted_ids v kept HN E. destruct (@with_bytes_spec _ HN) as [H1 H2]. assert (H := @with_frequent_spec decode (firstn v sorted_ids) 0 _ H1). unfold truncated in E.
  destruct (with_frequent decode 0 (firstn v sorted_ids) (with_bytes ranks)) as [d|]; [|discriminate]. cbn [option_map] in E. injection E as <-. destruct H as (_ & HN' & HI). split.
  - clear -HN'. induction d as [|e l IH]; [exact HN'|]. cbn [filter map] in *. inversion HN' as [|? ? Ha Hb]; subst. destruct (snd e <? v); [|auto].
    cbn [map]. constructor; [|auto]. intros Hin. apply Ha. apply in_map_iff in Hin as (x & Hx & Hin). apply filter_In in Hin as [Hin _]. rewrite <- Hx. now apply in_map.
  - intros k r. rewrite filter_In, HI, H2. cbn [snd]. rewrite Nat.ltb_lt.
    assert (Hkeys : ~ In k (map fst (with_bytes ranks)) <-> length k <> 1 /\ ~ In k (map fst ranks)).
    { split.
      - intros Hk. split; [|intros Hin; exact (Hk (@with_bytes_keys _ _ HN Hin))]. intros Hl. destruct k as [|b [|c k]]; try discriminate. apply Hk. apply (in_map fst _ ([b], byte_value b)). apply H2. left. eauto.
      - intros [Hl Hn] Hin. apply in_map_iff in Hin as ((k' & r') & Hk & Hin). cbn [fst] in Hk. subst k'. destruct (proj1 (H2 _ _) Hin) as [(b & -> & _)|[_ Hin']]; [exact (Hl eq_refl)|]. apply Hn. exact (in_map fst _ _ Hin'). }
    rewrite Hkeys.
    assert (Hnth : forall j, j < v -> nth_error (firstn v sorted_ids) j = nth_error sorted_ids j).
    { clear. intros j Hj. revert v Hj. revert sorted_ids. induction j as [|j IH]; intros [|x l] [|v] Hj; try lia; cbn [firstn nth_error]; auto. apply IH. lia. }
    assert (HFst : forall j, j < v -> First decode (firstn v sorted_ids) k j <-> First decode sorted_ids k j).
    { intros j Hj. unfold First. rewrite (Hnth j Hj). apply and_iff_compat_l. split; intros H j' y Hlt Hy; (apply (H j' y Hlt)); [rewrite Hnth by lia|rewrite <- Hnth by lia]; exact Hy. }
    split.
    + intros [[H|[Hk (j & Hr & Hj)]] Hv]; (split; [exact Hv|]); [tauto|]. right. right. split; [apply Hk|]. split; [apply Hk|]. exists j. split; [lia|]. apply HFst; [lia|exact Hj].
    + intros [Hv [H|[H|(Hl & Hn & i & -> & Hi)]]]; (split; [|exact Hv]); [auto|auto|]. right. split; [auto|]. exists i. split; [lia|]. apply HFst; [lia|exact Hi].
Qed.
Print Assumptions C74_any.
(** ** C74: which tokens convert.py keeps does not depend on the frequencies it counts: it keeps the ranks below [v], and gives the bytes
    their own numbers. *)
Theorem C74_kept : forall ranks decode sorted_ids v, NoDup (map fst ranks) ->
  (forall id, In id (firstn v sorted_ids) -> exists val, decode id = Some val /\ In val (map fst ranks)) ->
  exists kept, truncated ranks decode sorted_ids v = Some kept /\ NoDup (map fst kept) /\
    forall k r, In (k, r) kept <-> r < v /\ ((exists b, k = [b] /\ r = byte_value b) \/ length k <> 1 /\ In (k, r) ranks).
Proof.
  intros ranks decode sorted_ids v HN Hd. destruct (@with_bytes_spec _ HN) as [H1 H2]. exists (filter (fun e => snd e <? v) (with_bytes ranks)). splits.
  - unfold truncated. rewrite with_frequent_known; [reflexivity|]. intros id Hid. destruct (Hd id Hid) as (val & Hv & Hin). exists val. split; [exact Hv|].
    now apply with_bytes_keys.
  - clear -H1. induction (with_bytes ranks) as [|e l IH]; [exact H1|]. cbn [filter map] in *. inversion H1 as [|? ? Ha Hb]; subst. destruct (snd e <? v); [|auto].
    cbn [map]. constructor; [|auto]. intros Hin. apply Ha. apply in_map_iff in Hin as (x & Hx & Hin). apply filter_In in Hin as [Hin _]. rewrite <- Hx. now apply in_map.
  - intros k r. rewrite filter_In, H2. cbn [snd]. rewrite Nat.ltb_lt. tauto.
Qed.
Print Assumptions C74_kept.
Theorem C74_frequencies_ignored : forall ranks decode ids ids' v, NoDup (map fst ranks) ->
  (forall id, In id (firstn v ids) \/ In id (firstn v ids') -> exists val, decode id = Some val /\ In val (map fst ranks)) ->
  truncated ranks decode ids v = truncated ranks decode ids' v.
Proof.
  intros ranks decode ids ids' v HN Hd. unfold truncated. rewrite !with_frequent_known; [reflexivity| |];
    (intros id Hid; destruct (Hd id) as (val & Hv & Hin); [tauto|]; exists val; split; [exact Hv|]; now apply with_bytes_keys).
Qed.
Print Assumptions C74_frequencies_ignored.
(** The most frequent token may be dropped, and one that never occurs be kept. *)
Definition small_ranks : list (bytes * nat) := map (fun i => ([byte_of_nat i], i)) (seq 0 256) ++ [(B "aa", 256); (B "bb", 257)].
Definition small_decode (id : nat) : option bytes := option_map fst (nth_error small_ranks id).
Definition token_number (k : bytes) : nat := match k with [] => 1000 | [b] => byte_value b | b :: _ => 1000 + byte_value b end.
Theorem C74_frequent_kept_refuted : exists ranks decode sorted_ids v kept, NoDup (map fst ranks) /\ Permutation sorted_ids (seq 0 (length ranks)) /\
  (forall id, In id (firstn v sorted_ids) -> exists val, decode id = Some val /\ In val (map fst ranks)) /\ truncated ranks decode sorted_ids v = Some kept /\
  exists id val, hd_error sorted_ids = Some id /\ decode id = Some val /\ ~ In val (map fst kept) /\ In (B "aa") (map fst kept) /\ last sorted_ids 0 = 256 /\ decode 256 = Some (B "aa").
Proof.
  assert (HN : NoDup (map fst small_ranks)).
  { apply NoDup_map_inv with (f := token_number). assert (E : map token_number (map fst small_ranks) = seq 0 256 ++ [1097; 1098]) by (vm_compute; reflexivity).
    rewrite E. clear E. apply NoDup_app_disjoint; [apply seq_NoDup|repeat constructor; simpl; intuition discriminate|]. intros x Hx [<-|[<-|[]]]; apply in_seq in Hx; lia. }
  set (ids := 257 :: seq 0 257).
  assert (Hd : forall id, In id (firstn 257 ids) -> exists val, small_decode id = Some val /\ In val (map fst small_ranks)).
  { intros id Hid. assert (Hlt : id < 258) by (apply In_firstn in Hid as [<-|Hid]; [lia|apply in_seq in Hid; lia]). unfold small_decode.
    destruct (nth_error small_ranks id) as [e|] eqn:E; [|apply nth_error_None in E; change (length small_ranks) with 258 in E; lia]. exists (fst e). split; [reflexivity|]. apply in_map. eapply nth_error_In; eauto. }
  exists small_ranks, small_decode, ids, 257. destruct (@C74_kept small_ranks small_decode ids 257 HN Hd) as (kept & E & HNk & HI). exists kept. splits; auto.
  - change (length small_ranks) with (257 + 1). rewrite seq_app. unfold ids. change (257 :: seq 0 257) with ([257] ++ seq 0 257). apply Permutation_app_comm.
  - exists 257, (B "bb"). splits; try reflexivity.
    + intros Hin. apply in_map_iff in Hin as ((k & r) & Hk & Hin). cbn [fst] in Hk. subst k. apply HI in Hin as [Hr [(b & Hb & _)|[_ Hin]]]; [discriminate|].
      unfold small_ranks in Hin. apply in_app_iff in Hin as [Hin|[Hin|[Hin|[]]]]; [apply in_map_iff in Hin as (i & Hi & _); discriminate|discriminate|]. injection Hin as <-. lia.
    + apply (in_map fst _ (B "aa", 256)). apply HI. split; [lia|right]. split; [discriminate|]. unfold small_ranks. apply in_or_app. right. now left.
Qed.
(** With a special token the ranks need not differ: the file has two tokens with one rank. *)
Theorem C74_ranks_differ_refuted : exists ranks decode sorted_ids v kept, NoDup (map fst ranks) /\ NoDup (map snd ranks) /\ truncated ranks decode sorted_ids v = Some kept /\
  In (B "aa", 256) kept /\ In (B "<s>", 256) kept.
Proof.
  exists small_ranks, (fun id => if id =? 258 then Some (B "<s>") else small_decode id), (258 :: seq 0 258), 257.
  assert (HN : NoDup (map fst small_ranks)).
  { apply NoDup_map_inv with (f := token_number). assert (E : map token_number (map fst small_ranks) = seq 0 256 ++ [1097; 1098]) by (vm_compute; reflexivity).
    rewrite E. clear E. apply NoDup_app_disjoint; [apply seq_NoDup|repeat constructor; simpl; intuition discriminate|]. intros x Hx [<-|[<-|[]]]; apply in_seq in Hx; lia. }
  destruct (truncated small_ranks (fun id => if id =? 258 then Some (B "<s>") else small_decode id) (258 :: seq 0 258) 257) as [kept|] eqn:E.
  - exists kept. destruct (@C74_any _ _ _ _ _ HN E) as [_ HI]. splits; auto.
    + assert (Es : map snd small_ranks = seq 0 258) by (vm_compute; reflexivity). rewrite Es. apply seq_NoDup.
    + apply HI. split; [lia|right; left]. split; [discriminate|]. unfold small_ranks. apply in_or_app. right. now left.
    + apply HI. split; [lia|right; right]. splits; [discriminate| |exists 0; splits; [reflexivity|]; split; [exists 258; auto|lia]].
      intros Hin. apply in_map_iff in Hin as ((k & r) & Hk & Hin). cbn [fst] in Hk. subst k. unfold small_ranks in Hin.
      apply in_app_iff in Hin as [Hin|[Hin|[Hin|[]]]]; [apply in_map_iff in Hin as (i & Hi & _); discriminate|discriminate|discriminate].
  - exfalso. apply C74_fails in E; [|exact HN]. destruct E as (id & Hid & E). apply In_firstn in Hid as [<-|Hid]; [discriminate|]. apply in_seq in Hid. destruct (id =? 258); [discriminate|].
    unfold small_decode in E. destruct (nth_error small_ranks id) as [e|] eqn:En; [discriminate|]. apply nth_error_None in En. change (length small_ranks) with 258 in En. lia.
Qed.
Print Assumptions C74_ranks_differ_refuted.
Example C74_example : exists kept, truncated small_ranks small_decode (rev (seq 0 258)) 200 = Some kept /\ length kept = 200.
Proof. eexists. split; [vm_compute; reflexivity|reflexivity]. Qed.
