(** Properties of the filter command's core (src/filter.rs). *)
From Verif Require Import Base F64 F64Proofs Trie Model ModelProofs Sort SortProofs Filter FilterProofs.
Set Implicit Arguments.

(** A token the filter may remove: it is not protected, or protection is overridden, and it does not score above the
    minimum ([None]: minus infinity). *)
Definition Eligible (c : filter_cfg) (t : scored_token) : Prop :=
  (st_keep t = true -> fc_force c = true) /\
  fltb (match fc_min_score c with Some m => m | None => fninf end) (st_score t) = false.
Lemma removable_iff c t : removable c t = true <-> Eligible c t.
Proof.
  unfold removable, Eligible. destruct (st_keep t), (fc_force c), (fltb _ _); simpl; split; intros H; try discriminate; try (split; congruence);
    destruct H as [H1 H2]; try discriminate; auto; specialize (H1 eq_refl); discriminate.
Qed.
(** How many elements of a list satisfy [P]. *)
Inductive Count {A} (P : A -> Prop) : list A -> nat -> Prop :=
| Count_nil : Count P [] 0
| Count_yes a l n : P a -> Count P l n -> Count P (a :: l) (S n)
| Count_no a l n : ~ P a -> Count P l n -> Count P (a :: l) n.
Lemma Count_filter {A} (P : A -> Prop) f l n : (forall a, f a = true <-> P a) -> Count P l n -> length (filter f l) = n.
Proof.
  intros Hf. induction 1 as [|a l n Ha H IH|a l n Ha H IH]; simpl; [reflexivity| |].
  - apply Hf in Ha. rewrite Ha. simpl. congruence.
  - rewrite <- Hf in Ha. destruct (f a); congruence.
Qed.

(** Example: five tokens; "b" and "c" are eligible below -2. *)
Definition exf_vocab : list scored_token :=
  [ST [x61] (f64_of_Z (-1)) false; ST [x62] (f64_of_Z (-3)) false; ST [x63] (f64_of_Z (-4)) false;
   ST [x64] (f64_of_Z (-5)) true; ST [x65] f0 false].
Definition exf (n : nat) (force : bool) : filter_cfg := FilterCfg n (Some (f64_of_Z (-2))) force.
Definition exf_run (n : nat) (force : bool) : res (list (bytes * bool)) :=
  m <- filter_model insertion_sort insertion_sort (exf n force) (model_from exf_vocab) ;;
  Ok (map (fun t => (st_value t, st_keep t)) (m_vocab m)).

(** ** C25 *)
Theorem C25_filter_is_safe : forall s1 s2 c m m', valid_sorter s1 -> valid_sorter s2 -> filter_model s1 s2 c m = Ok m' ->
  (vocab_size m <= fc_vocab_size c -> m' = m) /\
  Nat.min (vocab_size m) (fc_vocab_size c) <= vocab_size m' /\
  exists removed, Permutation (m_vocab m) (m_vocab m' ++ removed) /\ Forall (Eligible c) removed.
Proof.
  intros s1 s2 c m m' H1 H2 H. apply filter_model_spec in H as [[Hl ->]|(Hl & Em & _ & removed & P & HF & Hn & _)]; auto.
  - split; [reflexivity|]. split; [lia|]. exists []. now rewrite app_nil_r.
  - split; [lia|]. split.
    + apply Permutation_length in P. rewrite app_length in P. unfold vocab_size in *. lia.
    + exists removed. split; [exact P|]. eapply Forall_impl; [|exact HF]. intros. now apply removable_iff.
Qed.
Print Assumptions C25_filter_is_safe.
(** Protected tokens, and tokens above the minimum, are all still there. *)
Theorem C25_protected : forall s1 s2 c m m' t, valid_sorter s1 -> valid_sorter s2 -> filter_model s1 s2 c m = Ok m' ->
  In t (m_vocab m) -> ~ Eligible c t -> In t (m_vocab m').
Proof.
  intros s1 s2 c m m' t H1 H2 H Ht Hn. destruct (@C25_filter_is_safe s1 s2 c m m' H1 H2 H) as (_ & _ & removed & P & HF).
  apply (Permutation_in _ P) in Ht. apply in_app_or in Ht as [Ht|Ht]; [exact Ht|]. rewrite Forall_forall in HF. now apply HF in Ht.
Qed.
Print Assumptions C25_protected.
(** It fails exactly on a NaN score in a vocabulary that has to shrink. *)
Theorem C25_panics : forall s1 s2 c m, valid_sorter s1 -> valid_sorter s2 ->
  (exists m', filter_model s1 s2 c m = Ok m') \/ filter_model s1 s2 c m = Panic.
Proof. intros s1 s2 c m H1 H2. destruct (@filter_model_total s1 s2 c m H1 H2) as [|[? _]]; auto. Qed.
Theorem C25_panics_iff : forall s1 s2 c m, valid_sorter s1 -> valid_sorter s2 ->
  filter_model s1 s2 c m = Panic <->
  fc_vocab_size c < vocab_size m /\ 2 <= vocab_size m /\ exists t, In t (m_vocab m) /\ f_is_nan (st_score t) = true.
Proof.
  intros s1 s2 c m H1 H2. split.
  - intros H. destruct (@filter_model_total s1 s2 c m H1 H2) as [[m' E]|[_ ?]]; [congruence|assumption].
  - intros (? & ? & ?). now apply filter_model_panics.
Qed.
Print Assumptions C25_panics_iff.
Example C25_example : valid_sorter insertion_sort /\
  exf_run 4 false = Ok [([x65], false); ([x61], false); ([x62], false); ([x64], true)] /\
  exf_run 4 true = Ok [([x65], false); ([x61], false); ([x62], false); ([x63], false)] /\
  exf_run 1 false = Ok [([x65], false); ([x61], false); ([x64], true)] /\
  exf_run 5 false = Ok (map (fun t => (st_value t, st_keep t)) exf_vocab).
Proof. split; [exact insertion_sort_valid|]. repeat split; vm_compute; reflexivity. Qed.

(** ** C26 *)
Theorem C26_filter_removes_all_it_may : forall s1 s2 c m m' n, valid_sorter s1 -> valid_sorter s2 -> filter_model s1 s2 c m = Ok m' ->
  Count (Eligible c) (m_vocab m) n ->
  vocab_size m' = vocab_size m - Nat.min (vocab_size m - fc_vocab_size c) n.
Proof.
  intros s1 s2 c m m' n H1 H2 H Hc. apply (Count_filter (removable c)) in Hc; [|apply removable_iff].
  apply filter_model_spec in H as [[Hl ->]|(Hl & Em & _ & removed & P & HF & Hn & _)]; auto; [lia|].
  apply Permutation_length in P. rewrite app_length in P. unfold vocab_size in *. lia.
Qed.
Print Assumptions C26_filter_removes_all_it_may.
(** The lowest scores go first, and the result is sorted by decreasing score. *)
Theorem C26_lowest_first : forall s1 s2 c m m', valid_sorter s1 -> valid_sorter s2 -> filter_model s1 s2 c m = Ok m' ->
  fc_vocab_size c < vocab_size m ->
  StronglySorted (fun a b => fleb (st_score b) (st_score a) = true) (m_vocab m') /\
  exists removed, Permutation (m_vocab m) (m_vocab m' ++ removed) /\
    forall a b, In a removed -> In b (m_vocab m') -> Eligible c b -> fleb (st_score a) (st_score b) = true.
Proof.
  intros s1 s2 c m m' H1 H2 H Hlt. apply filter_model_spec in H as [[Hl ->]|(Hl & Em & HS & removed & P & HF & Hn & Hlow)]; auto; [lia|].
  split; [exact HS|]. exists removed. split; [exact P|]. intros a b Ha Hb He. apply Hlow; auto. now apply removable_iff.
Qed.
Print Assumptions C26_lowest_first.
(** Without a minimum score only tokens of score minus infinity can go. *)
Theorem C26_no_minimum : forall n force t, f_is_nan (st_score t) = false ->
  Eligible (FilterCfg n None force) t -> st_score t = fninf.
Proof.
  intros n force t Hn [_ H]. simpl in H. destruct (st_score t) as [s|[] | |s mm e He]; try discriminate; reflexivity.
Qed.
Lemma exf_count : Count (Eligible (exf 1 false)) exf_vocab 2.
Proof.
  repeat (first [apply Count_yes; [apply removable_iff; vm_compute; reflexivity|]
                |apply Count_no; [rewrite <- removable_iff; vm_compute; discriminate|]]); constructor.
Qed.
Example C26_example : Count (Eligible (exf 1 false)) exf_vocab 2 /\
  exf_run 1 false = Ok [([x65], false); ([x61], false); ([x64], true)].
Proof. split; [exact exf_count|vm_compute; reflexivity]. Qed.
(** The manual (src/cli.rs:99) says that tokens with a score lower than the minimum are removed: one that has just the minimum is removed, too. *)
Theorem C26_lower_refuted : exists n minimum m m' t, filter_model insertion_sort insertion_sort (FilterCfg n (Some minimum) false) m = Ok m' /\
  In t (m_vocab m) /\ fltb (st_score t) minimum = false /\ ~ In (st_value t) (map st_value (m_vocab m')).
Proof.
  set (m := model_from exf_vocab). assert (E : (m' <- filter_model insertion_sort insertion_sort (FilterCfg 1 (Some (f64_of_Z (-3))) false) m ;; Ok (map st_value (m_vocab m'))) = Ok [[x65]; [x61]; [x64]]) by (vm_compute; reflexivity).
  destruct (filter_model _ _ _ m) as [m'| | |] eqn:F; try discriminate. cbn [bind] in E. injection E as E.
  exists 1, (f64_of_Z (-3)), m, m', (ST [x62] (f64_of_Z (-3)) false). split; [exact F|]. split; [subst m; rewrite model_from_vocab; right; now left|]. split; [vm_compute; reflexivity|].
  rewrite E. cbn [st_value In]. intuition discriminate.
Qed.
Print Assumptions C26_lower_refuted.
