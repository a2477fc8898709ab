(** What the commands read and write (src/cli.rs): C58. *)
From Coq.Strings Require Import String.
From Verif Require Import Base BaseProofs F64 Utf8 SpecUtf8 Utf8Proofs Trie Model Processor Tokenizer SpecJson Json JsonProofs JsonWrite SpecSerde Serde SerdeProofs Sort SortProofs Par ParProofs Filter Merge Generate Mine MineProofs PropPar Lattice Prune Patterns Cli SpecCli CliProofs PropCli TrimProofs.
Set Implicit Arguments.
Local Open Scope list_scope.
Notation length := List.length (only parsing).

(** ** C58 *)
(** The text of an expression in a file: the line breaks and the white space around it are dropped. *)
Theorem C58_expression : forall fs path,
  (forall text, regex_file fs path = Ok text <-> exists contents, fs path = Some contents /\ Expression contents text) /\
  ((exists text, regex_file fs path = Ok text) \/ regex_file fs path = Panic).
Proof.
  intros fs path. split; [intros text; apply regex_file_ok|]. unfold regex_file, read_text. destruct (fs path) as [contents|]; [|now right]. simpl. destruct (utf8_ok contents); [|now right]. left. eexists. reflexivity.
Qed.
Print Assumptions C58_expression.
Theorem C58_load_regex : forall fs new path re, load_regex fs new path = Ok re <-> exists contents text, fs path = Some contents /\ Expression contents text /\ new text = Some re.
Proof.
  intros fs new path re. unfold load_regex. split.
  - destruct (regex_file fs path) as [text| | |] eqn:E; try discriminate. cbn [bind]. apply regex_file_ok in E as (contents & E & HE). intros H. exists contents, text. split; [exact E|]. split; [exact HE|]. destruct (new text); [now injection H as ->|discriminate].
  - intros (contents & text & E & HE & H). assert (Ht : regex_file fs path = Ok text) by (apply regex_file_ok; eauto). rewrite Ht. cbn [bind]. now rewrite H.
Qed.
Theorem C58_load_fancy : forall fs new path re, load_fancy_regex fs new path = Ok re <-> exists contents text, fs path = Some contents /\ Expression contents text /\ new text = Some re.
Proof.
  intros fs new path re. unfold load_fancy_regex. split.
  - destruct (regex_file fs path) as [text| | |] eqn:E; try discriminate. cbn [bind]. apply regex_file_ok in E as (contents & E & HE). intros H. exists contents, text. split; [exact E|]. split; [exact HE|]. destruct (new text); [now injection H as ->|discriminate].
  - intros (contents & text & E & HE & H). assert (Ht : regex_file fs path = Ok text) by (apply regex_file_ok; eauto). rewrite Ht. cbn [bind]. now rewrite H.
Qed.

(** Files of tokens: each holds a JSON array of strings; the tokens are those of the first file, then those of the second, and so on. *)
Definition Token_file (num_val : bytes -> option f64) (file : option bytes) (tokens : list bytes) : Prop :=
  exists contents v, file = Some contents /\ Utf8 contents /\ Document num_val contents v /\ Is_list Is_string v tokens.
Lemma load_token_file_ok fs num_val path tokens : load_token_file fs num_val path = Ok tokens <-> Token_file num_val (fs path) tokens.
Proof.
  unfold load_token_file, read_text, Token_file. split.
  - destruct (fs path) as [contents|]; [|discriminate]. cbn [some bind]. destruct (utf8_ok contents) eqn:EU; [|discriminate]. cbn [bind]. destruct (parse_document num_val contents) as [v|] eqn:E; [|discriminate].
    destruct (de_vec de_string v) as [l|] eqn:El; [|discriminate]. intros H. injection H as ->. exists contents, v. rewrite utf8_ok_spec in EU. apply parse_document_iff in E. rewrite (de_vec_iff _ _ de_string_iff) in El. auto.
  - intros (contents & v & -> & HU & HD & HL). cbn [some bind]. apply utf8_ok_spec in HU. rewrite HU. cbn [bind]. apply parse_document_iff in HD. rewrite HD. apply (de_vec_iff _ _ de_string_iff) in HL. now rewrite HL.
Qed.
Lemma load_token_file_total fs num_val path : (exists tokens, load_token_file fs num_val path = Ok tokens) \/ load_token_file fs num_val path = Panic.
Proof.
  unfold load_token_file, read_text. destruct (fs path) as [contents|]; [|now right]. cbn [some bind]. destruct (utf8_ok contents); [|now right]. cbn [bind]. destruct (parse_document num_val contents) as [v|]; [|now right].
  destruct (de_vec de_string v); [left; eexists; reflexivity|now right].
Qed.
Theorem C58_tokens : forall fs num_val paths,
  (forall tokens, load_tokens fs num_val paths = Ok tokens <-> exists lists, Forall2 (fun path l => Token_file num_val (fs path) l) paths lists /\ tokens = List.concat lists) /\
  ((exists tokens, load_tokens fs num_val paths = Ok tokens) \/ load_tokens fs num_val paths = Panic).
Proof.
  intros fs num_val paths. assert (HF : forall lists, map_res (load_token_file fs num_val) paths = Ok lists <-> Forall2 (fun path l => Token_file num_val (fs path) l) paths lists).
  { intros lists. rewrite map_res_ok. split; intros H; induction H; constructor; auto; now apply load_token_file_ok. }
  split.
  - intros tokens. unfold load_tokens. split.
    + destruct (map_res _ paths) as [lists| | |]; try discriminate. intros H. injection H as <-. exists lists. split; [now apply HF|reflexivity].
    + intros (lists & H & ->). apply HF in H. now rewrite H.
  - unfold load_tokens. destruct (map_res_total (load_token_file fs num_val) paths) as [[lists ->]| ->]; [intros; apply load_token_file_total|left; eexists; reflexivity|now right].
Qed.
Print Assumptions C58_tokens.

(** Patterns: by name, or as expressions; in the order of the arguments. *)
Definition Names (name text : bytes) : Prop := In (name, text) patterns \/ (forall t, ~ In (name, t) patterns) /\ text = name.
Lemma hm_get_first {V} name (l : list (bytes * V)) : NoDup (map fst l) -> forall t, hm_get bytes_eqb name l = Some t <-> In (name, t) l.
Proof.
  induction l as [|[k v] l IH]; intros HD t; [split; [discriminate|intros []]|]. inversion HD; subst. cbn [hm_get]. destruct (bytes_eqb_spec name k) as [->|Hn].
  - split; [intros E; injection E as ->; now left|]. intros [E|HI]; [injection E as ->; reflexivity|]. exfalso. apply H1. apply (in_map fst) in HI. exact HI.
  - rewrite IH by assumption. split; [now right|]. intros [E|HI]; [congruence|exact HI].
Qed.
Fixpoint distinct (l : list bytes) : bool := match l with [] => true | x :: l' => negb (existsb (bytes_eqb x) l') && distinct l' end.
Lemma distinct_NoDup l : distinct l = true -> NoDup l.
Proof.
  induction l as [|x l IH]; intros H; constructor; apply andb_prop in H as [H1 H2]; [|auto]. intros HI. apply negb_true_iff in H1. apply not_true_iff_false in H1. apply H1, existsb_exists. exists x. split; [exact HI|now destruct (bytes_eqb_spec x x)].
Qed.
Theorem C58_patterns : forall new names,
  (forall texts, load_patterns new names = Ok texts <-> Forall2 (fun name text => Names name text /\ new text <> None) names texts) /\
  ((exists texts, load_patterns new names = Ok texts) \/ load_patterns new names = Panic).
Proof.
  intros new names. assert (HD : NoDup (map fst patterns)) by (apply distinct_NoDup; vm_compute; reflexivity).
  assert (H1 : forall name, exists t, Names name t /\ forall t', Names name t' -> t' = t).
  { intros name. destruct (hm_get bytes_eqb name patterns) as [t|] eqn:E.
    - exists t. assert (E' := E). apply (hm_get_first name patterns HD) in E'. split; [now left|]. intros t' [H|[H _]]; [|now apply H in E']. apply (hm_get_first name patterns HD) in H. congruence.
    - assert (HN : forall t, ~ In (name, t) patterns) by (intros t HI; apply (hm_get_first name patterns HD) in HI; congruence). exists name. split; [right; auto|]. intros t' [H|[_ H]]; [now apply HN in H|exact H]. }
  assert (HG : forall name, Names name (match hm_get bytes_eqb name patterns with Some text => text | None => name end)).
  { intros name. destruct (hm_get bytes_eqb name patterns) as [t|] eqn:E; [left; now apply (hm_get_first name patterns HD) in E|]. right. split; [|reflexivity]. intros t HI. apply (hm_get_first name patterns HD) in HI. congruence. }
  split.
  - intros texts. unfold load_patterns. rewrite map_res_ok. assert (HE : forall name text, load_pattern new name = Ok text <-> Names name text /\ new text <> None).
    { intros name text. unfold load_pattern. specialize (HG name). set (t := match hm_get bytes_eqb name patterns with Some text => text | None => name end) in *. destruct (H1 name) as (t0 & _ & HU). split.
      - destruct (new t) eqn:E; [|discriminate]. intros H. injection H as <-. split; [exact HG|congruence].
      - intros [HN Hn]. assert (text = t) as -> by (rewrite (HU _ HN), (HU _ HG); reflexivity). destruct (new t); [reflexivity|contradiction]. }
    split; intros H; induction H; constructor; auto; now apply HE.
  - apply map_res_total. intros name _. unfold load_pattern. destruct (new _); eauto.
Qed.
Print Assumptions C58_patterns.

(** Every failure stops a command by a panic; none returns an error. *)
Lemma then_err_inv {A C} (x : res A -> Prop) (k : A -> res C -> Prop) e : andthen x k (Err e) -> x (Err e) \/ exists a, k a (Err e).
Proof. intros H. inversion H; subst; eauto. Qed.
Lemma write_file_err writable path contents e : write_file writable path contents <> Err e.
Proof. unfold write_file. destruct (writable path); discriminate. Qed.
Lemma map_res_err {A C} (f : A -> res C) l e : (forall a, f a <> Err e) -> map_res f l <> Err e.
Proof. intros H. induction l as [|a l IH]; [discriminate|]. simpl. specialize (H a). destruct (f a); cbn [bind]; try discriminate; [destruct (map_res f l); cbn [bind]; discriminate || congruence|congruence]. Qed.
Lemma bind_err {A C} (x : res A) (k : A -> res C) e : x <> Err e -> (forall a, k a <> Err e) -> bind x k <> Err e.
Proof. destruct x; simpl; congruence || discriminate || auto. Qed.
Lemma some_err {A} (x : option A) e : some x <> Err e.
Proof. destruct x; discriminate. Qed.
Lemma load_sources_err fs parse_f64 normalize srcs ps e : load_sources fs parse_f64 normalize srcs ps <> Err e.
Proof. apply map_res_err. intros src. destruct (load_source_total fs parse_f64 normalize ps src) as [[s ->]| ->]; discriminate. Qed.
Lemma load_patterns_err new names e : load_patterns new names <> Err e.
Proof. destruct (C58_patterns new names) as [_ [[t ->]| ->]]; discriminate. Qed.
Lemma regex_file_err fs path e : regex_file fs path <> Err e.
Proof. destruct (C58_expression fs path) as [_ [[t ->]| ->]]; discriminate. Qed.
Lemma load_tokens_err fs num_val paths e : load_tokens fs num_val paths <> Err e.
Proof. destruct (C58_tokens fs num_val paths) as [_ [[t ->]| ->]]; discriminate. Qed.
Lemma load_opt_err {A} (load : bytes -> res A) path e : (forall p, load p <> Err e) -> load_opt load path <> Err e.
Proof. intros H. destruct path as [p|]; [|discriminate]. cbn [load_opt]. apply bind_err; [apply H|discriminate]. Qed.
Lemma open_err fs num_val input e : open_tokenizer fs num_val input <> Err e.
Proof. unfold open_tokenizer. destruct (from_file num_val (fs input)); discriminate. Qed.
Lemma sort_err {A} s (key : A -> f64) l e : sort_by_f64 s key l <> Err e.
Proof. unfold sort_by_f64. repeat match goal with |- context [if ?x then _ else _] => destruct x end; discriminate. Qed.
Lemma sort_desc_err {A} s (key : A -> f64) l e : sort_by_f64_desc s key l <> Err e.
Proof. unfold sort_by_f64_desc. repeat match goal with |- context [if ?x then _ else _] => destruct x end; discriminate. Qed.
Lemma push_err size items : forall st e, push_loop size items st <> Err e.
Proof.
  induction items as [|[[token freq] keep] items IH]; intros [seen vocab] e; [discriminate|]. cbn [push_loop]. destruct (size <=? length vocab); [discriminate|]. destruct (negb (contains token seen) && (1 <? length token)); [|apply IH].
  destruct freq; [apply IH|discriminate].
Qed.

Section Failures.
  Variables (fs : bytes -> option bytes) (writable : bytes -> bool) (parse_f64 : bytes -> option f64) (normalize : unicode_form -> bytes -> bytes).
  Variables (fmt_num : f64 -> bytes) (num_val : bytes -> option f64).
  Variables (regex_new : bytes -> option ((bytes -> bool) * (bytes -> list bytes))) (fancy_new : bytes -> option (bytes -> list (option bytes))).
  Variables (exp ln : f64 -> f64) (threads : nat) (s1 s2 : sorter).

  Theorem C58_no_errors : forall e,
    (forall output vocab_size train processors specials suggested added split allow p max,
      ~ generate_cmd fs writable parse_f64 normalize fmt_num num_val regex_new fancy_new ln threads s1 s2 output vocab_size train processors specials suggested added split allow p max (Err e)) /\
    (forall fuel input output vocab_size train dropout shrink_factor em_subiters,
      ~ prune_cmd fs writable parse_f64 normalize fmt_num num_val exp ln threads s1 s2 fuel input output vocab_size train dropout shrink_factor em_subiters (Err e)) /\
    (forall input output vocab_size min_score force, filter_cmd fs writable fmt_num num_val s1 s2 input output vocab_size min_score force <> Err e) /\
    (forall output names, regex_cmd writable regex_new output names <> Err e) /\
    (forall input output train allow num_merges step scale_factor max,
      ~ merge_cmd fs writable parse_f64 normalize fmt_num num_val regex_new threads s1 input output train allow num_merges step scale_factor max (Err e)) /\
    (forall num_idioms output train names, ~ mine_cmd fs writable parse_f64 normalize fmt_num regex_new threads s1 num_idioms output train names (Err e)).
  Proof.
    intros e. repeat split.
    - intros. intros H. apply then_err_inv in H as [H|([[[[[ps sources] al] sp] ad] su] & H)].
      + revert H. unfold generate_inputs. apply bind_err; [|intros ps]; [apply map_res_err; intros name; unfold processor_named; repeat match goal with |- context [if ?x then _ else _] => destruct x end; discriminate|].
        apply bind_err; [apply load_sources_err|intros sources]. apply bind_err; [apply load_opt_err; intros; apply bind_err; [apply regex_file_err|intros; apply some_err]|intros al].
        apply bind_err; [apply load_opt_err; intros; apply bind_err; [apply regex_file_err|intros; apply some_err]|intros sp]. apply bind_err; [apply load_tokens_err|intros ad]. apply bind_err; [apply load_tokens_err|discriminate].
      + apply then_err_inv in H as [H|(g & H)].
        * clear - H. set (g := gen_new _ _ _ _ _ _) in H. clearbody g. remember (Err e) as r. induction H; try discriminate; auto.
        * apply then_err_inv in H as [H|(vocab & H)]; [|now apply write_file_err in H]. destruct H as (entries & _ & H). symmetry in H. revert H. unfold generate_from. apply bind_err; [apply push_err|intros st]. apply bind_err; [apply push_err|intros st'].
          match goal with |- context [if ?x then _ else _] => destruct x end; discriminate.
    - intros. intros H. apply then_err_inv in H as [H|([[[m ps] sps] sources] & H)].
      + revert H. apply bind_err; [apply open_err|intros [[m ps] sps]]. apply bind_err; [apply load_sources_err|discriminate].
      + apply then_err_inv in H as [H|(m' & H)]; [|now apply write_file_err in H]. destruct H as (samples & _ & H). remember (Err e) as r eqn:Er. destruct H as [r _]. destruct r; discriminate.
    - intros. unfold filter_cmd. apply bind_err; [apply open_err|intros [[m ps] sps]]. apply bind_err; [|intros; apply write_file_err]. unfold filter_model. destruct (_ <=? _); [discriminate|]. apply bind_err; [apply sort_err|intros vocab]. apply bind_err; [apply sort_desc_err|discriminate].
    - intros. unfold regex_cmd. apply bind_err; [apply load_patterns_err|intros]. apply bind_err; [apply some_err|intros; apply write_file_err].
    - intros. intros H. apply then_err_inv in H as [H|([[[[m ps] sps] sources] re] & H)].
      + destruct train as [|src srcs]; [discriminate|]. revert H. apply bind_err; [apply open_err|intros [[m ps] sps]]. apply bind_err; [apply load_sources_err|intros]. apply bind_err; [|discriminate]. apply bind_err; [apply regex_file_err|intros; apply some_err].
      + apply then_err_inv in H as [H|(m' & H)]; [|now apply write_file_err in H]. destruct H as (samples & _ & H). inversion H.
    - intros. intros H. apply then_err_inv in H as [H|([sources re] & H)].
      + destruct train as [|src srcs]; [discriminate|]. destruct names as [|name names]; [discriminate|]. revert H. apply bind_err; [apply load_sources_err|intros]. apply bind_err; [apply load_patterns_err|intros]. apply bind_err; [apply some_err|discriminate].
      + apply then_err_inv in H as [H|(idioms & H)]; [|now apply write_file_err in H]. destruct H as (samples & idioms & _ & _ & H). discriminate.
  Qed.

  (** A tokenizer that can not be read stops the command. *)
  Theorem C58_unreadable : forall input, (forall t, from_file num_val (fs input) <> Ok t) ->
    (forall fuel output vocab_size train dropout shrink_factor em_subiters r,
      prune_cmd fs writable parse_f64 normalize fmt_num num_val exp ln threads s1 s2 fuel input output vocab_size train dropout shrink_factor em_subiters r -> r = Panic) /\
    (forall output vocab_size min_score force, filter_cmd fs writable fmt_num num_val s1 s2 input output vocab_size min_score force = Panic) /\
    (forall output train allow num_merges step scale_factor max r,
      merge_cmd fs writable parse_f64 normalize fmt_num num_val regex_new threads s1 input output train allow num_merges step scale_factor max r -> r = Panic).
  Proof.
    intros input HN. assert (HO : open_tokenizer fs num_val input = Panic).
    { unfold open_tokenizer. unfold from_file in *. destruct (fs input) as [contents|]; [|reflexivity]. destruct (utf8_ok contents); [|reflexivity]. destruct (from_str_total num_val contents) as [[t E]|E]; [|now rewrite E]. now apply HN in E. }
    repeat split.
    - intros. unfold prune_cmd in H. rewrite HO in H. inversion H; subst; try reflexivity; discriminate.
    - intros. unfold filter_cmd. now rewrite HO.
    - intros. unfold merge_cmd in H. rewrite HO in H. destruct train; inversion H; subst; try reflexivity; discriminate.
  Qed.

  (** Merging and mining without data, and mining without patterns, stop at once. *)
  Theorem C58_nothing_given :
    (forall input output allow num_merges step scale_factor max r,
      merge_cmd fs writable parse_f64 normalize fmt_num num_val regex_new threads s1 input output [] allow num_merges step scale_factor max r <-> r = Panic) /\
    (forall num_idioms output train names r, train = [] \/ names = [] -> mine_cmd fs writable parse_f64 normalize fmt_num regex_new threads s1 num_idioms output train names r <-> r = Panic).
  Proof.
    split.
    - intros. split; [|intros ->; now apply then_panic]. intros H. inversion H; subst; try reflexivity; discriminate.
    - intros. split.
      + intros HM. destruct train as [|src srcs]; [|destruct H as [H| ->]; [discriminate|]]; inversion HM; subst; try reflexivity; discriminate.
      + intros ->. apply then_panic. destruct train as [|src srcs]; [reflexivity|destruct H as [H| ->]; [discriminate|reflexivity]].
  Qed.

  (** What the mine command writes: the most frequent idioms as a file of tokens, the most frequent first. *)
  Theorem C58_mine : forall codec num_idioms output train names path contents, valid_sorter s1 -> num_codec fmt_num num_val codec ->
    (forall text re sample part, regex_new text = Some re -> In part (snd re sample) -> Utf8 part) ->
    mine_cmd fs writable parse_f64 normalize fmt_num regex_new threads s1 num_idioms output train names (Ok (path, contents)) ->
    path = output /\
    exists sources texts re tokens, load_sources fs parse_f64 normalize train [] = Ok sources /\ load_patterns regex_new names = Ok texts /\ regex_new (mine_text texts) = Some re /\
      Token_file num_val (Some contents) tokens /\ length tokens <= num_idioms /\ NoDup tokens /\
      let count := occurrences (snd re) (List.concat (map so_samples sources)) in
      Forall (fun t => 0 < count t) tokens /\ StronglySorted (fun a b => count b <= count a) tokens /\
      (forall t, 0 < count t -> ~ In t tokens -> length tokens = num_idioms /\ Forall (fun t' => count t <= count t') tokens).
  Proof.
    intros codec num_idioms output train names path contents Hs Hc HU H. apply then_inv in H as ([sources re] & H1 & H). apply then_inv in H as (idioms & (samples & idioms' & HS & HM & E) & H). injection E as <-.
    assert (HW : path = output /\ contents = write fmt_num true 0 (JArr (map (fun i => jstr (fst i)) idioms))).
    { unfold write_file in H. destruct (writable output); [|discriminate]. injection H as <- <-. auto. }
    destruct HW as [-> ->]. split; [reflexivity|].
    destruct train as [|src srcs]; [discriminate|]. destruct names as [|name names]; [discriminate|]. set (train := src :: srcs) in *. set (nms := name :: names) in *.
    destruct (load_sources fs parse_f64 normalize train []) as [sources'| | |] eqn:El; try discriminate. destruct (load_patterns regex_new nms) as [texts| | |] eqn:Et; try discriminate. cbn [bind] in H1.
    destruct (regex_new (mine_text texts)) as [re'|] eqn:Er; [|discriminate]. injection H1 as -> ->.
    destruct (C30_mine_counts Hs HM) as (HL & HD & HC & HO & HR).
    assert (HP : forall t, occurrences (snd re) samples t = occurrences (snd re) (List.concat (map so_samples sources)) t).
    { intros t. unfold occurrences. apply Permutation_count_occ. apply Permutation_sym. unfold shuffled in HS. clear - HS. induction HS; cbn [flat_map]; [reflexivity|now apply Permutation_app_head| |now transitivity (flat_map (snd re) l')].
      rewrite !app_assoc. apply Permutation_app_tail, Permutation_app_comm. }
    exists sources, texts, re, (map fst idioms). split; [reflexivity|]. split; [reflexivity|]. split; [exact Er|]. split; [|split; [now rewrite map_length|split; [exact HD|]]].
    - exists (write fmt_num true 0 (JArr (map (fun i => jstr (fst i)) idioms))), (reread codec (JArr (map (fun i => jstr (fst i)) idioms))). split; [reflexivity|]. split; [|split].
      + apply write_Utf8; [intros x Hx; now apply Hc|]. assert (HI : forall i, In i idioms -> Utf8 (fst i)); [|clear - HI; induction idioms as [|[t n] l IH]; [exact I|split; [exact (HI _ (or_introl eq_refl))|apply IH; intros; apply HI; now right]]].
        intros [t n] Hi. apply HC in Hi as [-> Hn]. apply (count_occ_In bytes_dec) in Hn. apply in_flat_map in Hn as (sample & _ & Hn). now apply (HU _ _ _ _ Er) in Hn.
      + apply write_document; [exact Hc|]. cbn [height]. rewrite map_map. assert (E : list_max (map (fun x : bytes * nat => height (jstr (fst x))) idioms) <= 0) by (apply list_max_le, Forall_map, Forall_forall; intros; simpl; lia). lia.
      + eexists. split; [reflexivity|]. rewrite map_map. clear. induction idioms as [|[t n] idioms IH]; constructor; [now exists (plain t)|exact IH].
    - cbv zeta. split; [|split].
      + apply Forall_map. apply Forall_forall. intros [t n] Hi. apply HC in Hi as [-> Hn]. now rewrite <- HP.
      + clear - HC HO HP. induction HO as [|[t n] l HO IH HF]; constructor; [apply IH; intros; apply HC; now right|]. apply Forall_map. apply Forall_forall. intros [t' n'] Hi. rewrite Forall_forall in HF. specialize (HF _ Hi).
        assert (E1 := proj1 (HC t n (or_introl eq_refl))). assert (E2 := proj1 (HC t' n' (or_intror Hi))). cbn [fst snd] in *. rewrite <- !HP. lia.
      + intros t Ht Hn. rewrite <- HP in Ht. destruct (HR _ Ht Hn) as [E HF]. split; [now rewrite map_length|]. apply Forall_map. apply Forall_forall. intros [t' n'] Hi. assert (E2 := proj1 (HC _ _ Hi)). specialize (HF _ _ Hi). cbn [fst]. rewrite <- !HP. lia.
  Qed.
End Failures.
Print Assumptions C58_no_errors.
Print Assumptions C58_unreadable.
Print Assumptions C58_nothing_given.
Print Assumptions C58_mine.

(** *** Examples *)
(** A regex file with line breaks, and spaces (also U+00A0) around; a file of tokens with escapes; two patterns, the first by its name. *)
Definition exf_fs (path : bytes) : option bytes :=
  if bytes_eqb path (B "re") then Some ([xc2; xa0; x20; x61; x0d; x0a; x20] ++ [x62; x20; x0a])
  else if bytes_eqb path (B "tokens") then Some (B "[ ""ab"" , ""c"" ]")
  else if bytes_eqb path (B "data") then Some ([x61; x62; x00; x62])
  else None.
Definition exf_num (_ : bytes) : option f64 := None.
Definition exf_fmt (_ : f64) : bytes := B "0".
Definition exf_new (text : bytes) : option ((bytes -> bool) * (bytes -> list bytes)) := Some (fun _ => true, map (fun b => [b])).
Definition exf_text : bytes := Eval vm_compute in write exf_fmt true 0 (JArr [jstr (B "b"); jstr (B "a")]).
Example C58_example :
  regex_file exf_fs (B "re") = Ok (B "a b") /\ regex_file exf_fs (B "none") = Panic /\
  load_tokens exf_fs exf_num [B "tokens"; B "tokens"] = Ok [B "ab"; B "c"; B "ab"; B "c"] /\
  load_patterns exf_new [B "word"; B "x+"] = Ok [B "[A-Za-z]+"; B "x+"] /\
  mine_cmd exf_fs (fun _ => true) (fun _ => None) (fun _ s => s) exf_fmt exf_new 1 insertion_sort 5 (B "out") [B "d:data"] [B "x"] (Ok (B "out", exf_text)).
Proof.
  split; [vm_compute; reflexivity|]. split; [vm_compute; reflexivity|]. split; [vm_compute; reflexivity|]. split; [vm_compute; reflexivity|].
  eapply then_ok; [vm_compute; reflexivity|]. apply then_ok with (a := [([x62], 2); ([x61], 1)]); [|vm_compute; reflexivity].
  exists [[x61; x62]; [x62]], [([x62], 2); ([x61], 1)]. split; [apply Permutation_refl|]. split; [|reflexivity].
  exists (map (chunk_idioms (map (fun b => [b]))) (chunks (par_chunk_size 1 2 5) [[x61; x62]; [x62]])), [([x61], 1); ([x62], 1); ([x62], 1)], [([x61], 1); ([x62], 2)].
  split; [|split; [|split; [vm_compute; apply perm_swap || apply Permutation_refl|vm_compute; reflexivity]]].
  - vm_compute. repeat constructor.
  - match goal with |- Interleaving ?l ?s => let l' := eval vm_compute in l in change (Interleaving l' s); exact (Interleaving_concat l') end.
Qed.
