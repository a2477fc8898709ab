(** Properties of vocabulary generation (src/generate.rs). *)
From Flocq Require IEEE754.BinarySingleNaN.
From Verif Require Import Base BaseProofs F64 F64Proofs Utf8 SpecUtf8 Utf8Proofs Trie Model ModelProofs SpecModel EncodeProofs Sort SortProofs Par ParProofs
  MineProofs Filter Merge MergeProofs Generate GenerateProofs PropModel PropFilter PropMerge.
Set Implicit Arguments.
Local Ltac splits := repeat match goal with |- _ /\ _ => split end.

(** Generators as the program makes them. *)
Inductive Fed : generator -> Prop :=
| Fed_new max p split allow added suggested : Fed (gen_new max p split allow added suggested)
| Fed_more g threads samples g' : Fed g -> feed_result g threads samples (Ok g') -> Fed g'.
Lemma Fed_ok g : Fed g -> gen_ok g.
Proof. induction 1 as [|g threads samples g' _ IH H]; [apply gen_new_ok|]. now apply (feed_ok IH H). Qed.

(** ** C33 *)
(** The strings a sample counts for: the permitted substrings of its parts, and the listed tokens in it. *)
Definition Part (g : generator) (sample part : bytes) : Prop :=
  match g_split g with None => part = sample | Some split => In (Some part) (split sample) end.
Definition Candidate (g : generator) (part x : bytes) : Prop :=
  (exists pre post, part = pre ++ x ++ post /\ Utf8 pre) /\ Utf8 x /\ x <> [] /\ length x <= g_max_token_length g /\
  match g_allow g with None => True | Some allow => allow x = true end.
Definition Counted (g : generator) (x sample : bytes) : Prop :=
  (exists part, Part g sample part /\ Candidate g part x) \/
  (In x (g_added g) \/ In x (g_suggested g)) /\ exists pre post, sample = pre ++ x ++ post.
(** The samples and the parts the regex finds in them are strings. *)
Definition strings (g : generator) (samples : list bytes) : Prop :=
  Forall Utf8 samples /\ forall split sample part, g_split g = Some split -> In sample samples -> In (Some part) (split sample) -> Utf8 part.

Lemma counted_iff g samples sample x : strings g samples -> In sample samples ->
  (exists part, part_of g sample part /\ In x (part_cands (g_max_token_length g) part) /\ allowed g x) \/
  In x (g_added g ++ g_suggested g) /\ Substring x sample <-> Counted g x sample.
Proof.
  intros [HU HS] Hin. unfold Counted. rewrite in_app_iff. apply or_iff_compat_r.
  assert (HP : forall part, part_of g sample part -> Utf8 part).
  { unfold part_of. intros part Hp. destruct (g_split g) as [sp|] eqn:E; [eapply HS; eauto|]. subst part. rewrite Forall_forall in HU. auto. }
  split; intros (part & Hp & H); exists part; (split; [exact Hp|]).
  - destruct H as [H Ha]. apply part_cands_spec in H as (pre & post & E & Hpre & Hx & Hne & Hm); [|now apply HP]. unfold Candidate. splits; eauto.
  - destruct H as ((pre & post & E & Hpre) & Hx & Hne & Hm & Ha). split; [|exact Ha]. apply part_cands_spec; [now apply HP|]. exists pre, post. auto.
Qed.

Lemma count_sets x samples sets (Q : bytes -> Prop) :
  Forall2 (fun sample set => NoDup set /\ (In x set <-> Q sample)) samples sets -> Count Q samples (count_occ bytes_dec (concat sets) x).
Proof.
  induction 1 as [|sample set samples sets [HD HQ] _ IH]; [constructor|]. cbn [concat]. rewrite count_occ_app.
  destruct (in_dec bytes_dec x set) as [Hin|Hout].
  - assert (E : count_occ bytes_dec set x = 1) by (now apply NoDup_count_occ'). rewrite E. apply Count_yes; [now apply HQ|exact IH].
  - assert (E : count_occ bytes_dec set x = 0) by (now apply count_occ_not_In). rewrite E. apply Count_no; [now rewrite <- HQ|exact IH].
Qed.

Lemma Count_unique {A} (P : A -> Prop) l n m : Count P l n -> Count P l m -> n = m.
Proof. intros H. revert m. induction H as [|a l n Ha _ IH|a l n Ha _ IH]; intros m Hm; inversion Hm; subst; try contradiction; [reflexivity|f_equal|]; now apply IH. Qed.

Lemma feed_sets g samples sets : strings g samples ->
  Forall2 (fun sample set => exists rnd set0, (forall k, in_unit (rnd k)) /\ sample_tokens g rnd sample = Ok set0 /\ Permutation set0 set) samples sets ->
  Forall2 (fun sample set => NoDup set /\ (forall x, In x set -> Counted g x sample) /\ (g_insert_probability g = f1 -> forall x, Counted g x sample -> In x set)) samples sets.
Proof.
  intros HS HF. assert (HI : Forall (fun s => In s samples) samples) by now apply Forall_forall. revert HF HI. generalize samples at 1 3 4 as l. intros l HF.
  induction HF as [|sample set l sets (rnd & set0 & Hr & H & P) _ IH]; intros HI; [constructor|]. inversion HI as [|? ? Hin HI']; subst. constructor; [|auto].
  destruct (sample_tokens_spec g rnd sample H) as (HD & H1 & H2). splits.
  - now apply (Permutation_NoDup P).
  - intros x Hx. apply (counted_iff _ x HS Hin), H1. now apply (Permutation_in _ (Permutation_sym P)).
  - intros Ep x Hx. apply (Permutation_in _ P), H2; [|now apply (counted_iff _ x HS Hin)]. intros k. rewrite Ep. apply Hr.
Qed.

Theorem C33_feed_counts_samples : forall g threads samples g' x n, Fed g -> strings g samples -> g_insert_probability g = f1 ->
  feed_result g threads samples (Ok g') -> Count (Counted g x) samples n ->
  count_of bytes_eqb x (g_frequencies g') = count_of bytes_eqb x (g_frequencies g) + n.
Proof.
  intros g threads samples g' x n Hg HS Hp H Hn. apply Fed_ok in Hg as [HD _]. destruct (feed_spec HD H) as (sets & HF & _ & _ & HC & _). rewrite HC. f_equal.
  apply (feed_sets HS) in HF. assert (HQ : Count (Counted g x) samples (count_occ bytes_dec (concat sets) x)).
  { apply count_sets. clear - HF Hp. induction HF as [|sample set l sets (H1 & H2 & H3) _ IH]; constructor; [|exact IH]. split; [exact H1|]. split; auto. }
  exact (Count_unique HQ Hn).
Qed.
Print Assumptions C33_feed_counts_samples.
(** For any probability: at most once for every sample, and only what is permitted. *)
Theorem C33_feed_bounds : forall g threads samples g' x n, Fed g -> strings g samples ->
  feed_result g threads samples (Ok g') -> Count (Counted g x) samples n ->
  count_of bytes_eqb x (g_frequencies g) <= count_of bytes_eqb x (g_frequencies g') <= count_of bytes_eqb x (g_frequencies g) + n.
Proof.
  intros g threads samples g' x n Hg HS H Hn. apply Fed_ok in Hg as [HD _]. destruct (feed_spec HD H) as (sets & HF & _ & _ & HC & _). rewrite HC. split; [lia|].
  apply Nat.add_le_mono_l. apply (feed_sets HS) in HF. clear - HF Hn. revert n Hn.
  induction HF as [|sample set samples sets (HD & H1 & _) _ IH]; intros n Hn; [simpl; lia|]. cbn [concat]. rewrite count_occ_app.
  assert (HO : count_occ bytes_dec set x <= 1) by now apply NoDup_count_occ. inversion Hn as [|? ? m Hy Hm|? ? m Hno Hm]; subst.
  - specialize (IH _ Hm). lia.
  - specialize (IH _ Hm). assert (E : count_occ bytes_dec set x = 0); [|lia]. apply count_occ_not_In. intros Hx. apply Hno. auto.
Qed.
Print Assumptions C33_feed_bounds.
Theorem C33_only_permitted : forall g threads samples g' x, Fed g -> strings g samples -> feed_result g threads samples (Ok g') ->
  In x (map fst (g_frequencies g')) -> In x (map fst (g_frequencies g)) \/ exists sample, In sample samples /\ Counted g x sample.
Proof.
  intros g threads samples g' x Hg HS H Hk. apply Fed_ok in Hg as [HD _]. destruct (feed_spec HD H) as (sets & HF & _ & _ & _ & HK). apply HK in Hk. destruct Hk as [Hx|Hx]; [now left|right].
  apply (feed_sets HS) in HF. clear - HF Hx. revert Hx. induction HF as [|smp st ss sts (_ & H1 & _) _ IH]; intros Hx; [contradiction|]. cbn [concat] in Hx. apply in_app_or in Hx. destruct Hx as [Hx|Hx].
  - exists smp. split; [now left|auto].
  - destruct (IH Hx) as (s & Hs & HC). exists s. split; [now right|exact HC].
Qed.
(** Feeding has a result; it is a panic exactly if the regex engine fails on some sample. *)
Theorem C33_feed_panics : forall g threads samples,
  feed_result g threads samples Panic <-> exists split sample, g_split g = Some split /\ In sample samples /\ In None (split sample).
Proof.
  intros g threads samples. split.
  - intros H. inversion H as [sample rnd Hin _ HP|]; subst. apply sample_tokens_panic in HP as (sp & E & Hn). eauto.
  - intros (sp & sample & E & Hin & Hn). apply (feed_panics g threads samples sample (fun _ => f0)); [exact Hin|now intros|]. apply sample_tokens_panic. eauto.
Qed.

(** ** C31 *)
Definition score_sorted (l : list scored_token) : Prop := StronglySorted (fun a b => fleb (st_score b) (st_score a) = true) l.
(** The tokens in the order of preference: added, suggested, then by falling frequency ([order]); only those of two bytes or more,
    only the first occurrence of each, and as many as there is room for besides the 255 bytes. *)
Definition preferred (g : generator) (order : list bytes) : list (bytes * bool) :=
  map (fun t => (t, true)) (g_added g) ++ map (fun t => (t, false)) (g_suggested g) ++ map (fun t => (t, false)) order.
Inductive FirstsOf : list (bytes * bool) -> list (bytes * bool) -> Prop :=
| Firsts_nil : FirstsOf [] []
| Firsts_skip l r t k : FirstsOf l r -> length t <= 1 \/ In t (map fst l) -> FirstsOf (l ++ [(t, k)]) r
| Firsts_take l r t k : FirstsOf l r -> 1 < length t -> ~ In t (map fst l) -> FirstsOf (l ++ [(t, k)]) (r ++ [(t, k)]).

Lemma firsts_snoc {A} (l : list (bytes * A)) x : forall seen,
  firsts seen (l ++ [x]) = firsts seen l ++ (if contains (fst x) seen || contains (fst x) (map fst l) then [] else [x]).
Proof.
  induction l as [|y l IH]; intros seen; cbn [app firsts map].
  - rewrite Bool.orb_false_r. now destruct (contains (fst x) seen).
  - destruct (contains (fst y) seen) eqn:E.
    + rewrite IH. f_equal. unfold contains at 4. cbn [existsb]. fold (contains (fst x) (map fst l)). destruct (bytes_eqb_spec (fst x) (fst y)) as [->|]; [|reflexivity]. now rewrite E.
    + rewrite IH. cbn [app]. f_equal. f_equal. unfold contains at 1 4. cbn [existsb]. fold (contains (fst x) seen) (contains (fst x) (map fst l)).
      destruct (bytes_eqb (fst x) (fst y)), (contains (fst x) seen), (contains (fst x) (map fst l)); reflexivity.
Qed.
Lemma longer_snoc {A} (l : list (bytes * A)) x : longer (l ++ [x]) = longer l ++ (if 1 <? length (fst x) then [x] else []).
Proof. unfold longer. rewrite filter_app. reflexivity. Qed.
Lemma firsts_FirstsOf l : FirstsOf l (firsts (map (fun b => [b]) first_bytes) (longer l)).
Proof.
  induction l as [|[t k] l IH] using rev_ind; [constructor|]. rewrite longer_snoc. cbn [fst]. destruct (Nat.ltb_spec 1 (length t)) as [Hl|Hl].
  - rewrite firsts_snoc. cbn [fst]. assert (Es : contains t (map (fun b => [b]) first_bytes) = false).
    { apply contains_false. intros H. apply in_map_iff in H as (b & <- & _). simpl in Hl. lia. }
    rewrite Es. cbn [orb]. destruct (contains t (map fst (longer l))) eqn:Ec.
    + rewrite app_nil_r. apply Firsts_skip; [exact IH|right]. apply contains_spec in Ec. apply in_map_iff in Ec as (x & E & Hx). apply filter_In in Hx as [Hx _]. rewrite <- E. now apply in_map.
    + apply Firsts_take; [exact IH|exact Hl|]. apply contains_false in Ec. intros Hx. apply Ec. apply in_map_iff in Hx as (x & E & Hx). rewrite <- E. apply in_map. apply filter_In. split; [exact Hx|]. apply Nat.ltb_lt. subst t. exact Hl.
  - rewrite app_nil_r. apply Firsts_skip; [exact IH|now left].
Qed.
Lemma firsts_map {A B} (f : bytes * A -> bytes * B) l : (forall x, fst (f x) = fst x) -> forall seen, firsts seen (map f l) = map f (firsts seen l).
Proof.
  intros Hf. induction l as [|x l IH]; intros seen; [reflexivity|]. cbn [map firsts]. rewrite Hf. destruct (contains (fst x) seen); [apply IH|]. cbn [map]. now rewrite IH.
Qed.
Lemma longer_map {A B} (f : bytes * A -> bytes * B) l : (forall x, fst (f x) = fst x) -> longer (map f l) = map f (longer l).
Proof. intros Hf. unfold longer. induction l as [|x l IH]; [reflexivity|]. cbn [map filter]. rewrite Hf. destruct (1 <? length (fst x)); [cbn [map]; f_equal|]; exact IH. Qed.

Definition weight (g : generator) (x : bytes * bool) : scored_token :=
  ST (fst x) (f64_of_nat (count_of bytes_eqb (fst x) (g_frequencies g) * length (fst x))) (snd x).

Theorem C31_generate : forall ln s1 s2 g size vocab, valid_sorter s1 -> valid_sorter s2 -> Fed g ->
  generate_result ln s1 s2 g size (Ok vocab) ->
  exists order picks weighted,
    (* all strings counted, the most frequent first *)
    Permutation (map fst (g_frequencies g)) order /\
    StronglySorted (fun a b => count_of bytes_eqb b (g_frequencies g) <= count_of bytes_eqb a (g_frequencies g)) order /\
    (* the choice *)
    FirstsOf (preferred g order) picks /\
    (* weighted by frequency and length, the bytes with the highest frequency; sorted *)
    let highest := match order with [] => 1 | t :: _ => count_of bytes_eqb t (g_frequencies g) end in
    Permutation (map (fun b => ST [b] (f64_of_nat highest) true) first_bytes ++ map (weight g) (firstn (size - 255) picks)) weighted /\
    score_sorted weighted /\
    (* the scores are the logarithms of the relative weights *)
    let total := fold_left fadd (map st_score weighted) f0 in
    vocab = map (fun t => ST (st_value t) (fsub (ln (st_score t)) (ln total)) (st_keep t)) weighted /\
    Forall (fun t => f_is_normal (st_score t) = true) vocab.
Proof.
  intros ln s1 s2 g size vocab H1 H2 Hg H. apply Fed_ok in Hg as [HD HL]. destruct (generate_spec H1 H2 HD HL H) as (order & highest & weighted & PO & SO & Eh & PW & SW & E).
  assert (EC : forall e, In e order -> snd e = count_of bytes_eqb (fst e) (g_frequencies g)).
  { intros [t n] He. apply (Permutation_in _ (Permutation_sym PO)) in He. apply (hm_In_get bytes_eqb_spec) in He; [|exact HD]. unfold count_of. simpl. now rewrite He. }
  exists (map fst order). eexists. exists weighted. cbn zeta. splits.
  - now apply Permutation_map.
  - clear - SO EC. induction SO as [|e order SO IH HF]; [constructor|]. cbn [map]. constructor; [apply IH; intros; apply EC; now right|]. apply Forall_forall. intros t Ht.
    apply in_map_iff in Ht as (e' & <- & He'). rewrite Forall_forall in HF. specialize (HF _ He'). rewrite <- !EC; [exact HF|now left|now right].
  - apply firsts_FirstsOf.
  - replace (match map fst order with [] => 1 | t :: _ => count_of bytes_eqb t (g_frequencies g) end) with highest.
    2:{ rewrite Eh. destruct order as [|e order]; [reflexivity|]. cbn [map]. apply EC. now left. }
    unfold byte_tokens in PW. cbn zeta in PW.
    match type of PW with Permutation (_ ++ map weigh (firstn _ (firsts _ (longer ?l)))) _ => replace l with (map (fun x => (fst x, (frequency g (fst x), snd x))) (preferred g (map fst order))) in PW end.
    + rewrite longer_map, firsts_map, firstn_map, map_map in PW by reflexivity. exact PW.
    + unfold preferred. rewrite !map_app, !map_map. reflexivity.
  - exact SW.
  - destruct (existsb _ _) eqn:Ee; [discriminate|]. injection E as ->. reflexivity.
  - destruct (existsb _ _) eqn:Ee; [discriminate|]. injection E as ->. apply Forall_forall. intros t Ht. destruct (f_is_normal (st_score t)) eqn:En; [reflexivity|].
    assert (Hx : existsb (fun t => negb (f_is_normal (st_score t))) (logprobs ln weighted) = true) by (apply existsb_exists; exists t; rewrite En; auto). congruence.
Qed.
Print Assumptions C31_generate.

Lemma first_bytes_In b : In b first_bytes <-> b <> xff.
Proof.
  unfold first_bytes. rewrite in_map_iff. split.
  - intros (n & E & Hn) ->. apply in_seq in Hn. destruct (Byte.of_N (N.of_nat n)) eqn:E'; [|discriminate]. subst. apply Byte.to_of_N in E'. simpl in E'. lia.
  - intros Hb. exists (N.to_nat (Byte.to_N b)). rewrite N2Nat.id, Byte.of_to_N. split; [reflexivity|]. apply in_seq.
    assert (H := Byte.to_N_bounded b). assert (Byte.to_N b <> 255%N); [|lia]. intros E. apply Hb. assert (E' := Byte.of_to_N b). rewrite E in E'. simpl in E'. congruence.
Qed.
Lemma NoDup_app_disjoint {A} (a b : list A) : NoDup a -> NoDup b -> (forall x, In x a -> ~ In x b) -> NoDup (a ++ b).
Proof.
  intros Ha Hb. induction Ha as [|x a Hx _ IH]; intros H; [exact Hb|]. cbn [app]. constructor.
  - intros Hin. apply in_app_or in Hin as [Hin|Hin]; [now apply Hx|]. apply (H x); [now left|exact Hin].
  - apply IH. intros y Hy. apply H. now right.
Qed.
Lemma NoDup_app_l {A} (a b : list A) : NoDup (a ++ b) -> NoDup a.
Proof. induction a as [|x a IH]; [constructor|]. cbn [app]. intros H. inversion H as [|? ? Hx HD]; subst. constructor; [|auto]. intros Hin. apply Hx, in_or_app. now left. Qed.
Lemma FirstsOf_spec l r : FirstsOf l r -> NoDup (map fst r) /\ (forall t, In t (map fst r) -> 1 < length t /\ In t (map fst l)).
Proof.
  induction 1 as [|l r t k H [IH1 IH2] Hs|l r t k H [IH1 IH2] Hl Hn].
  - split; [constructor|contradiction].
  - split; [exact IH1|]. intros x Hx. rewrite map_app, in_app_iff. destruct (IH2 x Hx). auto.
  - rewrite !map_app. cbn [map fst]. split.
    + apply NoDup_app_disjoint; [exact IH1|repeat constructor; auto|]. intros x Hx [<-|[]]. apply Hn. now apply IH2.
    + intros x Hx. apply in_app_or in Hx as [Hx|[<-|[]]]; rewrite in_app_iff; [destruct (IH2 x Hx); auto|]. simpl. auto.
Qed.

(** Pairwise different, bounded, with all bytes but the last protected. *)
Theorem C31_distinct_bounded : forall ln s1 s2 g size vocab, valid_sorter s1 -> valid_sorter s2 -> Fed g ->
  generate_result ln s1 s2 g size (Ok vocab) ->
  distinct_values vocab /\ 255 <= length vocab <= Nat.max 255 size /\
  (forall b, b <> xff -> exists t, In t vocab /\ st_value t = [b] /\ st_keep t = true) /\
  ~ exists t, In t vocab /\ st_value t = [xff].
Proof.
  intros ln s1 s2 g size vocab H1 H2 Hg H. destruct (C31_generate H1 H2 Hg H) as (order & picks & weighted & _ & _ & HF & PW & _ & Ev & _). cbn zeta in *.
  destruct (FirstsOf_spec HF) as [HD HP].
  assert (EV : map st_value vocab = map st_value weighted) by (rewrite Ev, map_map; reflexivity).
  set (highest := match order with [] => 1 | t :: _ => _ end) in *.
  assert (PV : Permutation (map (fun b => [b]) first_bytes ++ map fst (firstn (size - 255) picks)) (map st_value vocab)).
  { rewrite EV. apply (Permutation_map st_value) in PW. rewrite map_app, !map_map in PW. exact PW. }
  assert (HDF : NoDup (map fst (firstn (size - 255) picks))).
  { rewrite <- (firstn_skipn (size - 255) picks), map_app in HD. eapply NoDup_app_l; exact HD. }
  assert (HPF : forall t, In t (map fst (firstn (size - 255) picks)) -> 1 < length t).
  { intros t Ht. apply HP. rewrite <- (firstn_skipn (size - 255) picks), map_app. apply in_or_app. now left. }
  splits.
  - unfold distinct_values. apply (Permutation_NoDup PV). 
    apply NoDup_app_disjoint; [|exact HDF|].
    + apply FinFun.Injective_map_NoDup; [intros a b E; congruence|]. apply (NoDup_map_inv Byte.to_N).
      replace (map Byte.to_N first_bytes) with (map N.of_nat (seq 0 255)) by reflexivity. apply FinFun.Injective_map_NoDup; [exact Nat2N.inj|]. apply seq_NoDup.
    + intros t Ht Ht'. apply HPF in Ht'. apply in_map_iff in Ht as (b & <- & _). simpl in Ht'. lia.
  - apply Permutation_length in PV. rewrite app_length, !map_length, firstn_length in PV. unfold first_bytes in PV. rewrite map_length, seq_length in PV. lia.
  - apply Permutation_length in PV. rewrite app_length, !map_length, firstn_length in PV. unfold first_bytes in PV. rewrite map_length, seq_length in PV. lia.
  - intros b Hb. assert (Hin : In (ST [b] (f64_of_nat highest) true) weighted).
    { apply (Permutation_in _ PW), in_or_app. left. apply in_map_iff. exists b. split; [reflexivity|]. now apply first_bytes_In. }
    exists (ST [b] (fsub (ln (f64_of_nat highest)) (ln (fold_left fadd (map st_score weighted) f0))) true). split; [|split; reflexivity]. rewrite Ev. apply in_map_iff. eexists. split; [|exact Hin]. reflexivity.
  - intros (t & Ht & E). apply (in_map st_value) in Ht. rewrite E in Ht. apply (Permutation_in _ (Permutation_sym PV)) in Ht. apply in_app_or in Ht as [Ht|Ht].
    + apply in_map_iff in Ht as (b & Eb & Hb). injection Eb as ->. now apply first_bytes_In in Hb.
    + apply HPF in Ht. simpl in Ht. lia.
Qed.
Print Assumptions C31_distinct_bounded.

(** Added tokens are there, protected, if there is room for all of them. *)
Lemma FirstsOf_app l l' r : FirstsOf (l ++ l') r -> exists r1 r2, r = r1 ++ r2 /\ FirstsOf l r1.
Proof.
  revert r. induction l' as [|x l' IH] using rev_ind; intros r H; [rewrite app_nil_r in H; exists r, []; rewrite app_nil_r; auto|].
  rewrite app_assoc in H. remember ((l ++ l') ++ [x]) as ll eqn:E. inversion H as [E0|l0 r0 t k H0 Hs E0|l0 r0 t k H0 Hl Hn E0].
  - exfalso. rewrite <- E0 in E. symmetry in E. now apply app_eq_nil in E as [_ [=]].
  - subst. apply app_inj_tail in E0 as [-> _]. now apply IH.
  - subst. apply app_inj_tail in E0 as [-> _]. destruct (IH _ H0) as (r1 & r2 & -> & H1). exists r1, (r2 ++ [(t, k)]). split; [now rewrite app_assoc|exact H1].
Qed.
Lemma FirstsOf_In l r t : FirstsOf l r -> In t (map fst l) -> 1 < length t -> In t (map fst r).
Proof.
  induction 1 as [|l r t' k H IH Hs|l r t' k H IH Hl Hn]; rewrite ?map_app; [contradiction| |]; intros Hin Ht; apply in_app_or in Hin as [Hin|[<-|[]]]; rewrite ?in_app_iff; auto.
  - destruct Hs as [Hs|Hs]; [simpl in *; lia|auto].
  - right. now left.
Qed.
Lemma FirstsOf_sub l r x : FirstsOf l r -> In x r -> In x l.
Proof.
  induction 1 as [|l r t' k H IH Hs|l r t' k H IH Hl Hn]; intros Hin; [exact Hin|apply in_or_app; auto|]. apply in_or_app. apply in_app_or in Hin as [Hin|Hin]; auto.
Qed.
Lemma FirstsOf_length l r : FirstsOf l r -> length r <= length l.
Proof. induction 1; rewrite ?app_length; simpl; lia. Qed.
Theorem C31_added_kept : forall ln s1 s2 g size vocab t, valid_sorter s1 -> valid_sorter s2 -> Fed g ->
  generate_result ln s1 s2 g size (Ok vocab) ->
  255 + length (g_added g) <= size -> In t (g_added g) -> 1 < length t ->
  exists tok, In tok vocab /\ st_value tok = t /\ st_keep tok = true.
Proof.
  intros ln s1 s2 g size vocab t H1 H2 Hg H Hroom Hin Hl. destruct (C31_generate H1 H2 Hg H) as (order & picks & weighted & _ & _ & HF & PW & _ & Ev & _). cbn zeta in *.
  unfold preferred in HF. apply FirstsOf_app in HF as (r1 & r2 & -> & HF). assert (Hr := FirstsOf_length HF). rewrite map_length in Hr.
  assert (Ht : In t (map fst r1)) by (apply (FirstsOf_In t HF); [rewrite map_map, map_id; exact Hin|exact Hl]).
  apply in_map_iff in Ht as ([t' k] & E & Ht). simpl in E. subst t'. assert (Hk : In (t, k) (map (fun t => (t, true)) (g_added g))) by (eapply FirstsOf_sub; eassumption). apply in_map_iff in Hk as (t' & E & _). injection E as -> <-.
  assert (Hw : In (weight g (t, true)) weighted).
  { apply (Permutation_in _ PW), in_or_app. right. apply in_map. rewrite firstn_app. apply in_or_app. left. now rewrite firstn_all2 by lia. }
  eexists. split; [rewrite Ev; apply in_map_iff; eexists; split; [reflexivity|exact Hw]|]. split; reflexivity.
Qed.
Print Assumptions C31_added_kept.
(** The scores fall, if the logarithm is monotone. *)
Lemma normal_finite_r (a c : f64) : f_is_normal (fsub a c) = true -> f_is_finite c = true.
Proof. destruct a as [|[]| |], c as [|[]| |]; simpl; try discriminate; reflexivity. Qed.
Theorem C31_sorted : forall ln s1 s2 g size vocab, valid_sorter s1 -> valid_sorter s2 -> Fed g ->
  (forall a b, fleb a b = true -> fleb (ln a) (ln b) = true) ->
  generate_result ln s1 s2 g size (Ok vocab) -> score_sorted vocab.
Proof.
  intros ln s1 s2 g size vocab H1 H2 Hg Hln H. destruct (C31_generate H1 H2 Hg H) as (order & picks & weighted & _ & _ & _ & _ & SW & Ev & HN). cbn zeta in *.
  set (total := ln (fold_left fadd _ f0)) in *. assert (HFin : weighted = [] \/ f_is_finite total = true).
  { destruct weighted as [|t w]; [now left|right]. rewrite Ev in HN. inversion HN as [|? ? Hn _]; subst. eapply normal_finite_r. exact Hn. }
  destruct HFin as [->|HFin]; [subst vocab; constructor|]. rewrite Ev. clear Ev HN H. clearbody total. unfold score_sorted. induction SW as [|t w SW IH HF]; [constructor|]. cbn [map]. constructor; [exact IH|].
  apply Forall_forall. intros t' Ht'. apply in_map_iff in Ht' as (u & <- & Hu). rewrite Forall_forall in HF. simpl. 
  assert (E : forall x, fsub x total = fadd x (fneg total)) by (intros x; unfold fsub, fadd, fneg; now destruct x as [|[]| |], total as [|[]| |]).
  rewrite !E. apply fadd_mono_l; [|apply Hln, HF, Hu]. unfold fneg. rewrite BinarySingleNaN.is_finite_Bopp. exact HFin.
Qed.
Print Assumptions C31_sorted.

(** ** C32 *)
(** All bytes of UTF-8 text have a token, which is protected. *)
Definition byte_complete (vocab : list scored_token) : Prop := forall b, b <> xff -> exists t, In t vocab /\ st_value t = [b] /\ st_keep t = true.
Lemma byte_of_N_xff n : (n < 255)%N -> byte_of_N n <> xff.
Proof. intros H E. assert (E' : bN (byte_of_N n) = 255%N) by (rewrite E; reflexivity). rewrite bN_byte_of_N in E' by lia. lia. Qed.
Lemma Utf8_no_xff s : Utf8 s -> ~ In xff s.
Proof.
  intros (cs & Hcs & ->) Hin. unfold encode_string in Hin. apply in_concat in Hin as (l & Hl & Hin). apply in_map_iff in Hl as (c & <- & Hc).
  rewrite Forall_forall in Hcs. apply Hcs in Hc. unfold scalar in Hc.
  assert (Hm : forall n, (n mod 64 < 64)%N) by (intros; now apply N.mod_lt).
  unfold encode_char in Hin. repeat match type of Hin with context [if ?b then _ else _] => destruct b eqn:? end;
    rewrite ?N.ltb_lt, ?N.ltb_ge in *; cbn [In] in Hin;
    repeat (destruct Hin as [Hin|Hin]; [revert Hin; apply byte_of_N_xff|]); try contradiction;
    try (pose proof (Hm c)); try (pose proof (Hm (c / 64)%N)); try (pose proof (Hm (c / 4096)%N));
    try (assert (c / 64 < 32)%N by (apply N.div_lt_upper_bound; lia)); try (assert (c / 4096 < 16)%N by (apply N.div_lt_upper_bound; lia));
    try (assert (c / 262144 < 5)%N by (apply N.div_lt_upper_bound; lia)); lia.
Qed.
Theorem C32_byte_complete_encodes : forall vocab rnd s dropout, fits vocab -> byte_complete vocab -> Utf8 s ->
  exists ids, encode (model_from vocab) rnd s dropout = Ok ids.
Proof.
  intros vocab rnd s dropout Hf Hb Hs. apply encode_covered; [exact Hf|]. apply Forall_forall. intros b Hin.
  destruct (Hb b) as (t & Ht & Ev & _); [|eauto]. intros ->. now apply (Utf8_no_xff Hs).
Qed.
Print Assumptions C32_byte_complete_encodes.
Theorem C32_generated : forall ln s1 s2 g size vocab, valid_sorter s1 -> valid_sorter s2 -> Fed g ->
  generate_result ln s1 s2 g size (Ok vocab) -> byte_complete vocab.
Proof. intros ln s1 s2 g size vocab H1 H2 Hg H. exact (proj1 (proj2 (proj2 (C31_distinct_bounded H1 H2 Hg H)))). Qed.
Theorem C32_generated_encodes : forall ln s1 s2 g size vocab rnd s dropout, valid_sorter s1 -> valid_sorter s2 -> Fed g ->
  generate_result ln s1 s2 g size (Ok vocab) -> fits vocab -> Utf8 s -> exists ids, encode (model_from vocab) rnd s dropout = Ok ids.
Proof. intros. apply C32_byte_complete_encodes; auto. eapply C32_generated; [exact H|exact H0|eassumption|eassumption]. Qed.
Print Assumptions C32_generated_encodes.
Theorem C32_filtered : forall s1 s2 c m m', valid_sorter s1 -> valid_sorter s2 -> fc_force c = false ->
  filter_model s1 s2 c m = Ok m' -> byte_complete (m_vocab m) -> byte_complete (m_vocab m').
Proof.
  intros s1 s2 c m m' H1 H2 Hf H Hb b Hx. destruct (Hb b Hx) as (t & Ht & Ev & Ek). exists t. split; [|auto].
  eapply C25_protected; [exact H1|exact H2|exact H|exact Ht|]. intros [Hk _]. apply Hk in Ek. congruence.
Qed.
Print Assumptions C32_filtered.
Theorem C32_merged : forall s threads c vocab samples m', valid_sorter s -> merge_fits c vocab ->
  merge_result s threads c (model_from vocab) samples (Ok m') -> byte_complete vocab -> byte_complete (m_vocab m').
Proof.
  intros s threads c vocab samples m' Hs HF H Hb b Hx. destruct (C27_merge_appends Hs HF H) as (added & _ & -> & _). destruct (Hb b Hx) as (t & Ht & E). exists t. split; [apply in_or_app; auto|exact E].
Qed.
Print Assumptions C32_merged.
(** The last byte can not be encoded; it does not occur in text. *)
Theorem C32_last_byte_missing : forall ln s1 s2 g size vocab, valid_sorter s1 -> valid_sorter s2 -> Fed g ->
  generate_result ln s1 s2 g size (Ok vocab) -> fits vocab -> forall rnd dropout ids, encode (model_from vocab) rnd [xff] dropout <> Ok ids.
Proof.
  intros ln s1 s2 g size vocab H1 H2 Hg H Hf rnd dropout ids HE. destruct (C31_distinct_bounded H1 H2 Hg H) as (_ & _ & _ & HN). apply HN.
  apply (encode_sound Hf) in HE. remember [xff] as s eqn:Es. destruct HE as [|id t ids' s' Ht Hne HC]; [discriminate|]. destruct Ht as [Ht _]. exists t. split; [eapply nth_error_In; exact Ht|].
  destruct (st_value t) as [|b v]; [congruence|]. injection Es as -> E. now apply app_eq_nil in E as [-> ->].
Qed.
Print Assumptions C32_last_byte_missing.

(** ** Examples *)
(** The samples "aab" and "ba" and an empty one; substrings of at most two bytes; "ba" is added and "aab" suggested. *)
Definition exg_new : generator := gen_new 2 f1 None (Some (fun x => negb (bytes_eqb x [x62]))) [[x62; x61]] [[x61; x61; x62]].
Definition exg_samples : list bytes := [[x61; x61; x62]; [x62; x61]; []].
Definition exg_sets : list (list bytes) := [[[x61; x61; x62]; [x61; x62]; [x61; x61]; [x61]]; [[x61]; [x62; x61]]; []].
Definition exg_fed : generator :=
  with_frequencies exg_new [([x62; x61], 2); ([x61; x61; x62], 2); ([x61; x62], 1); ([x61; x61], 1); ([x61], 2)].
Lemma exg_feed : feed_result exg_new 8 exg_samples (Ok exg_fed).
Proof.
  refine (@feed_ends exg_new 8 exg_samples exg_sets (map (fun t => (t, 1)) (concat exg_sets)) [([x61; x61; x62], 1); ([x61; x62], 1); ([x61; x61], 1); ([x61], 2); ([x62; x61], 1)] _ _ _).
  - repeat constructor; exists (fun _ => f0).
    + eexists. split; [split; reflexivity|]. split; [vm_compute; reflexivity|]. reflexivity.
    + eexists. split; [split; reflexivity|]. split; [vm_compute; reflexivity|]. reflexivity.
    + exists []. split; [split; reflexivity|]. split; reflexivity.
  - change (map (fun t => (t, 1)) (concat exg_sets)) with (concat (map (fun chunk => map (fun t => (t, 1)) (concat chunk)) (chunks (par_chunk_size 8 (length exg_samples) 5) exg_sets))). apply Interleaving_concat.
  - vm_compute. reflexivity.
Qed.
Example C33_example : Fed exg_new /\ strings exg_new exg_samples /\ Count (Counted exg_new [x61]) exg_samples 2 /\ Count (Counted exg_new [x62]) exg_samples 0.
Proof.
  assert (HS : strings exg_new exg_samples).
  { split; [|discriminate]. repeat constructor; [exists [97; 97; 98]%N|exists [98; 97]%N|exists []]; (split; [repeat constructor|reflexivity]). }
  split; [constructor|]. split; [exact HS|].
  assert (HC : forall x sample, Counted exg_new x sample -> In sample exg_samples -> In x (part_cands 2 sample) /\ x <> [x62] \/ x = [x62; x61] \/ x = [x61; x61; x62]).
  { intros x sample HC Hin. apply (counted_iff _ x HS Hin) in HC as [(p & -> & Hp & Ha)|[HI _]].
    - left. split; [exact Hp|]. intros ->. discriminate Ha.
    - simpl in HI. intuition. }
  split.
  - apply Count_yes; [|apply Count_yes; [|apply Count_no; [|constructor]]].
    + apply (counted_iff _ _ HS); [now left|]. left. eexists. split; [reflexivity|]. split; [vm_compute; auto|reflexivity].
    + apply (counted_iff _ _ HS); [right; now left|]. left. eexists. split; [reflexivity|]. split; [vm_compute; auto|reflexivity].
    + intros H. apply HC in H as [[[] _]|[|]]; try discriminate. simpl. auto.
  - repeat (apply Count_no; [intros H; apply HC in H as [[_ H]|[|]]; [congruence|discriminate|discriminate|simpl; auto]|]). constructor.
Qed.
(** With room for two more tokens; a step function stands in for the logarithm. *)
Definition exg_ln (x : f64) : f64 := if fleb (f64_of_nat 255) x then f1 else f0.
Definition view (r : res (list scored_token)) := match r with Ok vocab => Some (map (fun t => (st_value t, st_keep t)) (firstn 3 vocab), N.of_nat (length vocab)) | _ => None end.
Lemma view_Ok : forall r l n, view r = Some (l, n) -> exists vocab, r = Ok vocab /\ map (fun t => (st_value t, st_keep t)) (firstn 3 vocab) = l /\ length vocab = N.to_nat n.
Proof. intros [vocab| | |] l n H; try discriminate. injection H as H1 <-. exists vocab. rewrite Nat2N.id. auto. Qed.
Lemma exg_view : view (generate_from exg_ln insertion_sort insertion_sort exg_fed (g_frequencies exg_fed) 257) =
  Some ([([x61; x61; x62], false); ([x62; x61], true); ([x00], true)], 257%N).
Proof. vm_compute. reflexivity. Qed.
Example C31_example : exists vocab, generate_result exg_ln insertion_sort insertion_sort exg_fed 257 (Ok vocab) /\
  map (fun t => (st_value t, st_keep t)) (firstn 3 vocab) = [([x61; x61; x62], false); ([x62; x61], true); ([x00], true)] /\ length vocab = 257.
Proof.
  destruct (view_Ok _ exg_view) as (vocab & E & Hv & Hl). exists vocab. split; [|auto]. exists (g_frequencies exg_fed). split; [reflexivity|]. symmetry. exact E.
Qed.
