(** Properties of the command line: C48, C49, C51. *)
From Coq Require Import Reals Lra Lia Permutation.
From Flocq Require Import Core.Core.
From Verif Require Import Base BaseProofs F64 F64Proofs Utf8 SpecUtf8 Utf8Proofs Trie Model SpecModel ModelProofs Processor Tokenizer SpecTokenizer TokenizerProofs ModelFacts TokenizerFacts.
From Verif Require Import PropModel PropTokenizer SpecJson Json JsonProofs JsonWrite Serde SpecSerde SerdeProofs PropSerde Sort SortProofs Par Filter PropFilter Merge PropMerge Generate PropGenerate Prune PropPrune.
From Verif Require Import Cli SpecCli CountProofs CliProofs BorrowProofs.
Set Implicit Arguments.
Local Open Scope nat_scope.

(** ** C48 *)
(** A source is read exactly as described; all other descriptions and files stop the program. *)
Theorem C48_source : forall fs parse_f64 normalize ps src name samples,
  (forall path, match fs path with Some contents => countable contents | None => True end) ->
  load_source fs parse_f64 normalize ps src = Ok (Source name samples) <->
  exists path proportion contents, Describes parse_f64 src name path proportion /\ fs path = Some contents /\ Samples normalize ps contents proportion samples.
Proof. exact load_source_ok. Qed.
Print Assumptions C48_source.
Theorem C48_else_panic : forall fs parse_f64 normalize ps src,
  (forall s, load_source fs parse_f64 normalize ps src <> Ok s) -> load_source fs parse_f64 normalize ps src = Panic.
Proof. intros fs parse_f64 normalize ps src H. destruct (load_source_total fs parse_f64 normalize ps src) as [[s Hs]|]; [now apply H in Hs|assumption]. Qed.
(** The sources in order; one that can not be read stops the program. *)
Theorem C48_sources : forall fs parse_f64 normalize ps srcs,
  (forall loaded, load_sources fs parse_f64 normalize srcs ps = Ok loaded <-> Forall2 (fun src s => load_source fs parse_f64 normalize ps src = Ok s) srcs loaded) /\
  ((exists loaded, load_sources fs parse_f64 normalize srcs ps = Ok loaded) \/ load_sources fs parse_f64 normalize srcs ps = Panic).
Proof. intros. split; [intros; apply map_res_ok|]. apply map_res_total. intros; apply load_source_total. Qed.
(** The default and every larger proportion take all samples, negative ones and NaN none; there are never more than there are. *)
Theorem C48_share : forall n x k, (Z.of_nat n <= 2 ^ 53)%Z -> Share n x k ->
  k <= n /\ (fleb f1 x = true -> k = n) /\ (fleb x f0 = true \/ f_is_nan x = true -> k = 0).
Proof. intros n x k Hn H. split; [now apply Share_le in H|]. split; intros; [now apply (@Share_all n x k Hn)|now apply (@Share_none n x k Hn)]. Qed.
Print Assumptions C48_share.
(** The product is rounded before it is truncated: 0.3 of 10 samples are 3, although the number 0.3 of the machine is less
    than three tenths. *)
Theorem C48_rounded_product : exists x : f64, (10 * BinarySingleNaN.B2R x < 3)%R /\ Share 10 x 3.
Proof.
  set (x := f64_of_Z_exp 5404319552844595 (-54)). exists x. split.
  - assert (H := BinarySingleNaN.binary_normalize_correct prec64 emax64 _ _ BinarySingleNaN.mode_NE 5404319552844595 (-54) false).
    cbv zeta in H. simpl BinarySingleNaN.round_mode in H.
    assert (E : F2R (Float radix2 5404319552844595 (-54)) = (5404319552844595 / 18014398509481984)%R) by (unfold F2R; simpl; lra).
    assert (Hr : rnd64 (F2R (Float radix2 5404319552844595 (-54))) = F2R (Float radix2 5404319552844595 (-54))).
    { apply round_generic; [apply valid_rnd_N|]. apply generic_format_FLT. exists (Float radix2 5404319552844595 (-54)); [reflexivity|reflexivity|]. vm_compute. discriminate. }
    rewrite Hr in H. rewrite Rlt_bool_true in H.
    + destruct H as [H _]. change (BinarySingleNaN.B2R x) with (BinarySingleNaN.B2R (BinarySingleNaN.binary_normalize prec64 emax64 _ _ BinarySingleNaN.mode_NE 5404319552844595 (-54) false)).
      rewrite H, E. lra.
    + rewrite E. apply Rlt_le_trans with 1%R; [|apply (bpow_le radix2 0); discriminate]. apply Rabs_def1; lra.
  - unfold Share. assert (F : BinarySingleNaN.is_finite (fmul (f64_of_nat 10) x) = true) by (vm_compute; reflexivity).
    assert (U : f64_as_usize (fmul (f64_of_nat 10) x) = 3) by (vm_compute; reflexivity).
    apply as_usize_finite in F as F'. rewrite U in F'. unfold usize_max in F'. destruct (fmul (f64_of_nat 10) x); try discriminate; lia.
Qed.
Print Assumptions C48_rounded_product.


(** Names of processors. *)
Theorem C48_processors : forall names ps, load_processors names = Ok ps <->
  Forall2 (fun name p => match p with
                         | Crlf => name = B "crlf"
                         | Unicode f => name = B match f with Nfc => "nfc" | Nfd => "nfd" | Nfkc => "nfkc" | Nfkd => "nfkd" end
                         end) names ps.
Proof.
  intros names ps. unfold load_processors. rewrite map_res_ok.
  assert (H : forall name p, processor_named name = Ok p <-> match p with
                         | Crlf => name = B "crlf"
                         | Unicode f => name = B match f with Nfc => "nfc" | Nfd => "nfd" | Nfkc => "nfkc" | Nfkd => "nfkd" end
                         end).
  { intros name p. unfold processor_named, beqs. split.
    - repeat match goal with |- context [bytes_eqb ?a ?b] => destruct (bytes_eqb_spec a b) as [->|] end; intros H; try discriminate; injection H as <-; reflexivity.
    - destruct p as [|[]]; intros ->; reflexivity. }
  split; intros HF; induction HF; constructor; auto; now apply H.
Qed.

(** *** An example *)
Definition exc_fs (path : bytes) : option bytes := if bytes_eqb path (B "f") then Some ([x61; x0d; x0a; x00; x00; x62; x00] ++ [x0d; x0a]) else if bytes_eqb path (B "g") then Some [xff] else None.
Definition exc_f64 (s : bytes) : option f64 := if bytes_eqb s (B "0.5") then Some fhalf else None.
Definition exc_norm (f : unicode_form) (s : bytes) : bytes := s.
Definition exc_load (src : string) := load_source exc_fs exc_f64 exc_norm [Crlf] (B src).
Lemma exc_countable path : match exc_fs path with Some contents => countable contents | None => True end.
Proof. unfold exc_fs. destruct (bytes_eqb path (B "f")); [vm_compute; reflexivity|]. destruct (bytes_eqb path (B "g")); [vm_compute; reflexivity|exact I]. Qed.
Example C48_example :
  (forall path, match exc_fs path with Some contents => countable contents | None => True end) /\
  exc_load "a:f" = Ok (Source (B "a") [[x61; x0a]; [x62]; [x0a]]) /\
  exc_load "a:f:0.5" = Ok (Source (B "a") [[x61; x0a]]) /\
  exc_load "a:g" = Panic /\ exc_load "a:h" = Panic /\ exc_load "f" = Panic /\ exc_load "a:f:x" = Panic /\ exc_load "a:f:0.5:" = Panic.
Proof. split; [exact exc_countable|]. repeat split; vm_compute; reflexivity. Qed.

(** ** C49 *)
(** What a command writes is the tokenizer of the input file with another model, which is related by [R] to the old one. *)
Definition Rewrites (fmt_num : f64 -> bytes) (num_val : bytes -> option f64) (file : option bytes) (output : bytes) (R : tokenizer -> model -> Prop) (written : bytes * bytes) : Prop :=
  exists t t', from_file num_val file = Ok t /\ written = (output, save_contents fmt_num t') /\
    tk_processors t' = tk_processors t /\ tk_specials t' = tk_specials t /\ tk_specials_map t' = tk_specials_map t /\ R t (tk_model t').

Lemma then_inv {A C} (x : res A -> Prop) (k : A -> res C -> Prop) c : andthen x k (Ok c) -> exists a, x (Ok a) /\ k a (Ok c).
Proof. intros H. inversion H; subst; eauto. Qed.
Lemma open_inv fs num_val input m ps sps : open_tokenizer fs num_val input = Ok (m, ps, sps) ->
  exists t, from_file num_val (fs input) = Ok t /\ m = tk_model t /\ ps = tk_processors t /\ sps = tk_specials t.
Proof. unfold open_tokenizer. destruct (from_file num_val (fs input)) as [t| | |]; try discriminate. simpl. intros [= <- <- <-]. eauto. Qed.
Lemma save_inv writable fmt_num t output w : save writable fmt_num t output = Ok w -> w = (output, save_contents fmt_num t).
Proof. unfold save, write_file. destruct (writable output); [|discriminate]. now intros [= <-]. Qed.

Lemma loaded_form num_val file t : from_file num_val file = Ok t ->
  exists vocab ps sps, t = tok_new (model_from vocab) ps sps /\ Forall unescaped sps /\ Forall Utf8 sps.
Proof.
  intros H. apply C20_files in H as (s & -> & HU & H). apply from_str_iff in H as (v & vocab & ps & sps & HD & HT & ->).
  exists vocab, ps, sps. split; [reflexivity|]. eapply loaded_specials; eassumption.
Qed.
Lemma first_occurrences_idem l : first_occurrences (first_occurrences l) = first_occurrences l.
Proof.
  unfold first_occurrences. rewrite rev_involutive. f_equal. apply nodup_fixed_point, NoDup_nodup.
Qed.
Lemma tok_new_again m ps sps : tok_new m ps (first_occurrences sps) = tok_new m ps sps.
Proof.
  induction sps as [|x sps IH] using rev_ind; [reflexivity|]. rewrite first_occurrences_snoc. unfold tok_new in *. rewrite adds_app.
  assert (Hc := specials_ok_contains x (specials_ok_new m ps sps)). rewrite tok_new_specials, first_occurrences_In in Hc.
  destruct (in_dec (list_eq_dec Byte.byte_eq_dec) x sps) as [Hin|Hin].
  - rewrite IH. simpl. unfold add_special_token. unfold tok_new in Hc. now rewrite (proj2 Hc Hin).
  - rewrite adds_app, IH. reflexivity.
Qed.
Lemma adds_same sps : forall t t', tk_specials t = tk_specials t' -> tk_specials_map t = tk_specials_map t' ->
  tk_specials_map (add_special_tokens t sps) = tk_specials_map (add_special_tokens t' sps).
Proof.
  induction sps as [|x sps IH]; intros t t' H1 H2; [exact H2|]. simpl. apply IH; unfold add_special_token; rewrite H2; destruct (hm_contains _ _ _); simpl; congruence.
Qed.
Lemma rebuilt num_val file t m' : from_file num_val file = Ok t -> let t' := tok_new m' (tk_processors t) (tk_specials t) in
  tk_processors t' = tk_processors t /\ tk_specials t' = tk_specials t /\ tk_specials_map t' = tk_specials_map t /\ tk_model t' = m'.
Proof.
  intros H. apply loaded_form in H as (vocab & ps & sps & -> & _). simpl. rewrite !tok_new_processors, !tok_new_model, !tok_new_specials, first_occurrences_idem, tok_new_again.
  repeat split. now apply adds_same.
Qed.

Theorem C49_filter : forall fs writable fmt_num num_val s1 s2 input output vocab_size min_score force written,
  filter_cmd fs writable fmt_num num_val s1 s2 input output vocab_size min_score force = Ok written ->
  Rewrites fmt_num num_val (fs input) output (fun t m' => filter_model s1 s2 (FilterCfg vocab_size min_score force) (tk_model t) = Ok m') written.
Proof.
  intros fs writable fmt_num num_val s1 s2 input output vocab_size min_score force written H. unfold filter_cmd in H.
  destruct (open_tokenizer fs num_val input) as [[[m ps] sps]| | |] eqn:E; try discriminate. simpl in H. apply open_inv in E as (t & E & -> & -> & ->).
  destruct (filter_model _ _ _ _) as [m'| | |] eqn:EF; try discriminate. simpl in H. apply save_inv in H as ->.
  destruct (@rebuilt _ _ _ m' E) as (H1 & H2 & H3 & H4). eexists _, _. split; [exact E|]. split; [reflexivity|]. rewrite H4. auto.
Qed.
Print Assumptions C49_filter.

Theorem C49_prune : forall fs writable parse_f64 normalize fmt_num num_val exp ln threads s1 s2 fuel input output vocab_size train dropout shrink_factor em_subiters written,
  prune_cmd fs writable parse_f64 normalize fmt_num num_val exp ln threads s1 s2 fuel input output vocab_size train dropout shrink_factor em_subiters (Ok written) ->
  Rewrites fmt_num num_val (fs input) output (fun t m' => exists sources samples,
    load_sources fs parse_f64 normalize train (tk_processors t) = Ok sources /\ Permutation (List.concat (map so_samples sources)) samples /\
    prune_result exp ln threads s1 s2 fuel (PruneCfg vocab_size shrink_factor em_subiters dropout) samples (tk_model t) (Ok m')) written.
Proof.
  intros fs writable parse_f64 normalize fmt_num num_val exp ln threads s1 s2 fuel input output vocab_size train dropout shrink_factor em_subiters written H.
  apply then_inv in H as ([[[m ps] sps] sources] & H1 & H). apply then_inv in H as (m' & (samples & HS & HU) & H). apply save_inv in H as ->.
  destruct (open_tokenizer fs num_val input) as [[[m0 ps0] sps0]| | |] eqn:E; try discriminate. simpl in H1.
  destruct (load_sources fs parse_f64 normalize train ps0) as [sources0| | |] eqn:EL; try discriminate. simpl in H1. injection H1 as <- <- <- <-.
  apply open_inv in E as (t & E & -> & -> & ->). destruct (@rebuilt _ _ _ m' E) as (H1 & H2 & H3 & H4). eexists _, _. split; [exact E|]. split; [reflexivity|]. rewrite H4.
  split; [exact H1|]. split; [exact H2|]. split; [exact H3|]. exists sources0, samples. split; [exact EL|]. split; [exact HS|].
  inversion HU as [r Hr Er]. destruct r; try discriminate. injection Er as ->. exact Hr.
Qed.
Print Assumptions C49_prune.

Theorem C49_merge : forall fs writable parse_f64 normalize fmt_num num_val regex_new threads s input output train allow num_merges step scale_factor max_token_length written,
  merge_cmd fs writable parse_f64 normalize fmt_num num_val regex_new threads s input output train allow num_merges step scale_factor max_token_length (Ok written) ->
  Rewrites fmt_num num_val (fs input) output (fun t m' => exists sources re samples,
    load_sources fs parse_f64 normalize train (tk_processors t) = Ok sources /\ load_regex fs regex_new allow = Ok re /\ Permutation (List.concat (map so_samples sources)) samples /\
    merge_result s threads (MergeCfg (fst re) num_merges step scale_factor max_token_length) (tk_model t) samples (Ok m')) written.
Proof.
  intros fs writable parse_f64 normalize fmt_num num_val regex_new threads s input output train allow num_merges step scale_factor max_token_length written H.
  apply then_inv in H as ([[[[m ps] sps] sources] re] & H1 & H). apply then_inv in H as (m' & (samples & HS & HU) & H). apply save_inv in H as ->.
  assert (H1' : ('(m, ps, specials) <- open_tokenizer fs num_val input ;; train <- load_sources fs parse_f64 normalize train ps ;; allow <- load_regex fs regex_new allow ;;
                        Ok (m, ps, specials, train, allow)) = Ok (m, ps, sps, sources, re)) by (destruct train; [discriminate|exact H1]). clear H1. rename H1' into H1.
  destruct (open_tokenizer fs num_val input) as [[[m0 ps0] sps0]| | |] eqn:E; try discriminate. simpl in H1.
  destruct (load_sources fs parse_f64 normalize train ps0) as [sources0| | |] eqn:EL; try discriminate. simpl in H1.
  destruct (load_regex fs regex_new allow) as [re0| | |] eqn:ER; try discriminate. simpl in H1. injection H1 as <- <- <- <- <-.
  apply open_inv in E as (t & E & -> & -> & ->). destruct (@rebuilt _ _ _ m' E) as (H1 & H2 & H3 & H4). eexists _, _. split; [exact E|]. split; [reflexivity|]. rewrite H4.
  split; [exact H1|]. split; [exact H2|]. split; [exact H3|]. exists sources0, re0, samples. auto.
Qed.
Print Assumptions C49_merge.

(** Read again, the file has the processors and special tokens of the input file, and the tokens of the new model with the
    scores as they are printed and parsed; it can not be read if and only if a score is not finite. *)
Lemma save_vocab fmt_num m ps sps : save_contents fmt_num (tok_new m ps sps) = save_contents fmt_num (tok_new (model_from (m_vocab m)) ps sps).
Proof. unfold save_contents, ser_tok. now rewrite !tok_new_specials, !tok_new_processors, !tok_new_model, model_from_vocab. Qed.
Lemma same_fields t t' : tk_processors t' = tk_processors t -> tk_specials t' = tk_specials t -> m_vocab (tk_model t') = m_vocab (tk_model t) -> ser_tok t' = ser_tok t.
Proof. unfold ser_tok. now intros -> -> ->. Qed.
Theorem C49_reads_back : forall fmt_num num_val codec file output R written, num_codec fmt_num num_val codec ->
  Rewrites fmt_num num_val file output R written -> exists t m', from_file num_val file = Ok t /\ R t m' /\
    (Forall (fun tk => f_is_finite (st_score tk) = true) (m_vocab m') ->
     exists t', from_file num_val (Some (snd written)) = Ok t' /\ tk_processors t' = tk_processors t /\ tk_specials t' = tk_specials t /\ tk_specials_map t' = tk_specials_map t /\
       tk_model t' = model_from (map (fun tk => ST (st_value tk) (codec (st_score tk)) (st_keep tk)) (m_vocab m'))) /\
    (~ Forall (fun tk => f_is_finite (st_score tk) = true) (m_vocab m') -> forall t', from_file num_val (Some (snd written)) <> Ok t').
Proof.
  intros fmt_num num_val codec file output R written Hc (t & t' & HL & -> & Hp & Hs & Hm & HR). exists t, (tk_model t'). split; [exact HL|]. split; [exact HR|]. cbn [snd].
  destruct (@loaded_form _ _ _ HL) as (vocab & ps & sps & E & Hu & HU). subst t. rewrite tok_new_processors in *. rewrite tok_new_specials in *.
  assert (ES : save_contents fmt_num t' = save_contents fmt_num (tok_new (model_from (m_vocab (tk_model t'))) ps sps)).
  { unfold save_contents. f_equal. apply same_fields; rewrite ?tok_new_processors, ?tok_new_specials, ?tok_new_model, ?model_from_vocab; auto. }
  rewrite ES. split.
  - intros HF. destruct (@C19_round_trip fmt_num num_val codec (m_vocab (tk_model t')) ps sps Hc Hu HF) as (_ & _ & H). eexists. split; [exact (H HU)|].
    rewrite tok_new_processors, tok_new_specials, tok_new_model. repeat split. now apply adds_same.
  - intros HF t'' H. apply C20_files in H as (s & [= <-] & _ & H).
    destruct (@C19_unreadable fmt_num num_val codec (m_vocab (tk_model t')) ps sps Hc) as [_ H']; [tauto|]. congruence.
Qed.
Print Assumptions C49_reads_back.

(** An example: filtering. *)
Definition exc_file : bytes := save_contents ex_fmt (ex_tok [Crlf]).
Example C49_example : num_codec ex_fmt ex_num (fun x => x) /\ exists m',
  filter_cmd (fun _ => Some exc_file) (fun _ => true) ex_fmt ex_num insertion_sort insertion_sort (B "in") (B "out") 3 (Some finf) true =
  Ok (B "out", save_contents ex_fmt (tok_new m' [Crlf] ex_sps)) /\
  map st_value (m_vocab m') <> map st_value ex_vocab2.
Proof.
  split; [exact ex_codec|].
  assert (H : exists m', filter_model insertion_sort insertion_sort (FilterCfg 3 (Some finf) true) (model_from ex_vocab2) = Ok m' /\ map st_value (m_vocab m') <> map st_value ex_vocab2).
  { assert (E : match filter_model insertion_sort insertion_sort (FilterCfg 3 (Some finf) true) (model_from ex_vocab2) with Ok m' => length (m_vocab m') | _ => 0 end = 3) by (vm_compute; reflexivity).
    destruct (filter_model _ _ _ _) as [m'| | |]; try discriminate. exists m'. split; [reflexivity|]. intros H. apply (f_equal (@List.length _)) in H. rewrite !map_length in H. rewrite E in H. discriminate. }
  destruct H as (m' & HF & HN). exists m'. split; [|exact HN]. unfold filter_cmd, open_tokenizer, exc_file. rewrite (ex_loads [Crlf]). cbn [unwrap bind into_inner].
  unfold into_inner, ex_tok at 1. rewrite tok_new_model. rewrite HF. cbn [bind]. unfold ex_tok. rewrite tok_new_processors, tok_new_specials, tok_new_again. reflexivity.
Qed.

(** ** C51 *)
(** The files that the commands make: generated, or made from such a file by pruning, filtering (without force) or merging;
    every command in its own surroundings.  The special tokens given to generate are text. *)
Inductive Made (fmt_num : f64 -> bytes) (num_val : bytes -> option f64) : bytes -> Prop :=
| Made_generate fs writable parse_f64 normalize regex_new fancy_new ln threads s1 s2 output vocab_size train processors specials suggested added split allow insert_probability max_token_length contents :
    valid_sorter s1 -> valid_sorter s2 -> Forall Utf8 specials ->
    generate_cmd fs writable parse_f64 normalize fmt_num num_val regex_new fancy_new ln threads s1 s2 output vocab_size train processors specials suggested added split allow
      insert_probability max_token_length (Ok (output, contents)) ->
    Made fmt_num num_val contents
| Made_prune old fs writable parse_f64 normalize exp ln threads s1 s2 fuel input output vocab_size train dropout shrink_factor em_subiters contents :
    Made fmt_num num_val old -> valid_sorter s1 -> valid_sorter s2 -> fs input = Some old ->
    prune_cmd fs writable parse_f64 normalize fmt_num num_val exp ln threads s1 s2 fuel input output vocab_size train dropout shrink_factor em_subiters (Ok (output, contents)) ->
    Made fmt_num num_val contents
| Made_filter old fs writable s1 s2 input output vocab_size min_score contents :
    Made fmt_num num_val old -> valid_sorter s1 -> valid_sorter s2 -> fs input = Some old ->
    filter_cmd fs writable fmt_num num_val s1 s2 input output vocab_size min_score false = Ok (output, contents) ->
    Made fmt_num num_val contents
| Made_merge old fs writable parse_f64 normalize regex_new threads s input output train allow num_merges step scale_factor max_token_length contents :
    Made fmt_num num_val old -> valid_sorter s -> fs input = Some old ->
    (forall t, from_file num_val (Some old) = Ok t ->
       fits (m_vocab (tk_model t)) /\ (N.of_nat (length (m_vocab (tk_model t)) + num_merges) < 2 ^ 32)%N) -> (N.of_nat max_token_length < 2 ^ 32)%N ->
    merge_cmd fs writable parse_f64 normalize fmt_num num_val regex_new threads s input output train allow num_merges step scale_factor max_token_length (Ok (output, contents)) ->
    Made fmt_num num_val contents.

(** The contents: the text of a tokenizer whose vocabulary has all bytes. *)
Definition complete_file (fmt_num : f64 -> bytes) (contents : bytes) : Prop :=
  exists vocab ps sps, contents = save_contents fmt_num (tok_new (model_from vocab) ps sps) /\ byte_complete vocab /\ Forall Utf8 sps.
Lemma byte_complete_codec codec vocab : byte_complete vocab -> byte_complete (map (fun tk => ST (st_value tk) (codec (st_score tk)) (st_keep tk)) vocab).
Proof. intros H b Hb. destruct (H b Hb) as (t & Ht & Ev & Ek). eexists. split; [apply in_map_iff; eexists; split; [reflexivity|exact Ht]|]. now split. Qed.
Lemma complete_loads fmt_num num_val codec contents t : num_codec fmt_num num_val codec -> complete_file fmt_num contents -> from_file num_val (Some contents) = Ok t ->
  byte_complete (m_vocab (tk_model t)).
Proof.
  intros Hc (vocab & ps & sps & -> & Hb & HU) H.
  apply C20_files in H as H'. destruct H' as (s & [= <-] & _ & HS).
  destruct (forallb plain sps && forallb (fun tk => f_is_finite (st_score tk)) vocab) eqn:E.
  - apply andb_true_iff in E as [E1 E2]. rewrite forallb_forall in E1, E2.
    assert (Hu : Forall unescaped sps) by (apply Forall_forall; intros x Hx; apply plain_iff; auto).
    assert (Hf : Forall (fun tk => f_is_finite (st_score tk) = true) vocab) by (apply Forall_forall; auto).
    destruct (@C19_round_trip fmt_num num_val codec vocab ps sps Hc Hu Hf) as (_ & H2 & _). rewrite H2 in HS. injection HS as <-.
    rewrite tok_new_model, model_from_vocab. now apply byte_complete_codec.
  - destruct (@C19_unreadable fmt_num num_val codec vocab ps sps Hc) as [_ H2]; [|congruence].
    intros [Hu Hf]. apply andb_false_iff in E as [E|E].
    + assert (forallb plain sps = true); [|congruence]. apply forallb_forall. intros x Hx. apply plain_iff. rewrite Forall_forall in Hu. auto.
    + assert (forallb (fun tk => f_is_finite (st_score tk)) vocab = true); [|congruence]. apply forallb_forall. intros x Hx. rewrite Forall_forall in Hf. auto.
Qed.
Lemma rewrites_complete fmt_num num_val codec old output R contents : num_codec fmt_num num_val codec -> complete_file fmt_num old ->
  Rewrites fmt_num num_val (Some old) output R (output, contents) ->
  (forall t m', from_file num_val (Some old) = Ok t -> R t m' -> byte_complete (m_vocab (tk_model t)) -> byte_complete (m_vocab m')) -> complete_file fmt_num contents.
Proof.
  intros Hc HC (t & t' & HL & [= ->] & Hp & Hs & Hm & HR) HB. assert (Hb := complete_loads Hc HC HL). specialize (HB _ _ HL HR Hb).
  destruct (@loaded_form _ _ _ HL) as (vocab & ps & sps & E & Hu & HU). exists (m_vocab (tk_model t')), ps, sps. split; [|now split].
  unfold save_contents. f_equal. apply same_fields; rewrite ?tok_new_processors, ?tok_new_specials, ?tok_new_model, ?model_from_vocab; [| |reflexivity].
  - rewrite Hp, E. apply tok_new_processors.
  - rewrite Hs, E. apply tok_new_specials.
Qed.

Lemma feeds_Fed threads g ss r : feeds threads g ss r -> Fed g -> forall g', r = Ok g' -> Fed g'.
Proof.
  induction 1 as [g|g s ss g1 r Hs _ IH|g s ss Hs]; intros Hg g' E; [now injection E as <-| |discriminate].
  apply IH; [|exact E]. eapply Fed_more; eassumption.
Qed.
Lemma made_complete fmt_num num_val codec contents : num_codec fmt_num num_val codec -> Made fmt_num num_val contents -> complete_file fmt_num contents.
Proof.
  intros Hc. induction 1 as
    [fs writable parse_f64 normalize regex_new fancy_new ln threads s1 s2 output vocab_size train processors specials suggested added split allow insert_probability max_token_length contents H1 H2 HU H
    |old fs writable parse_f64 normalize exp ln threads s1 s2 fuel input output vocab_size train dropout shrink_factor em_subiters contents _ IH H1 H2 Hf H
    |old fs writable s1 s2 input output vocab_size min_score contents _ IH H1 H2 Hf H
    |old fs writable parse_f64 normalize regex_new threads s input output train allow num_merges step scale_factor max_token_length contents _ IH H1 Hf Hn Hl H].
  - apply then_inv in H as ([[[[[ps sources] al] sp] ad] su] & _ & H). apply then_inv in H as (g & Hg & H). apply then_inv in H as (vocab & HG & H).
    apply save_inv in H as [= ->]. exists vocab, ps, specials. split; [reflexivity|]. split; [|exact HU].
    eapply C32_generated; [exact H1|exact H2| |exact HG]. eapply feeds_Fed; [exact Hg|apply Fed_new|reflexivity].
  - apply C49_prune in H. rewrite Hf in H. eapply rewrites_complete; [exact Hc|exact IH|exact H|]. intros t m' HL (sources & samples & _ & _ & HP). exact (C32_pruned H1 H2 HP).
  - apply C49_filter in H. rewrite Hf in H. eapply rewrites_complete; [exact Hc|exact IH|exact H|]. intros t m' HL HP. exact (@C32_filtered s1 s2 (FilterCfg vocab_size min_score false) _ _ H1 H2 eq_refl HP).
  - apply C49_merge in H. rewrite Hf in H. eapply rewrites_complete; [exact Hc|exact IH|exact H|]. intros t m' HL (sources & re & samples & _ & _ & _ & HP).
    destruct (@loaded_form _ _ _ HL) as (vocab & ps & sps & E & _). assert (EV : tk_model t = model_from vocab) by (rewrite E; apply tok_new_model). specialize (Hn t HL).
    rewrite EV, model_from_vocab in *. apply C32_merged with (1 := H1) (3 := HP). unfold merge_fits. cbn [mc_num_merges mc_max_token_length]. tauto.
Qed.

(** Every tokenizer that is loaded from such a file encodes all text, whatever was done to the vocabulary on the way. *)
Theorem C51_pipeline : forall fmt_num num_val codec contents t, num_codec fmt_num num_val codec -> Made fmt_num num_val contents -> from_file num_val (Some contents) = Ok t ->
  byte_complete (m_vocab (tk_model t)) /\
  (fits (m_vocab (tk_model t)) -> forall rnd s dropout, Utf8 s -> exists ids, encode (tk_model t) rnd s dropout = Ok ids).
Proof.
  intros fmt_num num_val codec contents t Hc HM HL. assert (Hb := complete_loads Hc (made_complete Hc HM) HL). split; [exact Hb|]. intros Hf rnd s dropout Hs.
  destruct (@loaded_form _ _ _ HL) as (vocab & ps & sps & -> & _). rewrite tok_new_model, model_from_vocab in *. now apply C32_byte_complete_encodes.
Qed.
Print Assumptions C51_pipeline.

(** Special tokens that need escapes make generate write a file that nothing can read. *)
Theorem C51_unreadable_specials : forall fs writable parse_f64 normalize fmt_num num_val codec regex_new fancy_new ln threads s1 s2 output vocab_size train processors specials suggested added split allow
    insert_probability max_token_length path contents,
  num_codec fmt_num num_val codec -> ~ Forall unescaped specials ->
  generate_cmd fs writable parse_f64 normalize fmt_num num_val regex_new fancy_new ln threads s1 s2 output vocab_size train processors specials suggested added split allow
    insert_probability max_token_length (Ok (path, contents)) ->
  path = output /\ forall t, from_file num_val (Some contents) <> Ok t.
Proof.
  intros fs writable parse_f64 normalize fmt_num num_val codec regex_new fancy_new ln threads s1 s2 output vocab_size train processors specials suggested added split allow
    insert_probability max_token_length path contents Hc Hn H.
  apply then_inv in H as ([[[[[ps sources] al] sp] ad] su] & _ & H). apply then_inv in H as (g & _ & H). apply then_inv in H as (vocab & _ & H).
  apply save_inv in H as [= -> ->]. split; [reflexivity|]. intros t HL. apply C20_files in HL as (s & [= <-] & _ & HL).
  destruct (@C19_unreadable fmt_num num_val codec vocab ps specials Hc) as [_ H]; [tauto|]. congruence.
Qed.
Print Assumptions C51_unreadable_specials.
(** Otherwise what generate writes can be loaded. *)
Theorem C51_generated_loads : forall fs writable parse_f64 normalize fmt_num num_val codec regex_new fancy_new ln threads s1 s2 output vocab_size train processors specials suggested added split allow
    insert_probability max_token_length path contents,
  num_codec fmt_num num_val codec -> Forall unescaped specials -> Forall Utf8 specials ->
  generate_cmd fs writable parse_f64 normalize fmt_num num_val regex_new fancy_new ln threads s1 s2 output vocab_size train processors specials suggested added split allow
    insert_probability max_token_length (Ok (path, contents)) ->
  exists t ps, from_file num_val (Some contents) = Ok t /\ load_processors processors = Ok ps /\ tk_processors t = ps /\ tk_specials t = first_occurrences specials.
Proof.
  intros fs writable parse_f64 normalize fmt_num num_val codec regex_new fancy_new ln threads s1 s2 output vocab_size train processors specials suggested added split allow
    insert_probability max_token_length path contents Hc Hu HU H.
  apply then_inv in H as ([[[[[ps sources] al] sp] ad] su] & HI & H). apply then_inv in H as (g & _ & H). apply then_inv in H as (vocab & HG & H).
  apply save_inv in H as [= -> ->].
  assert (HF : Forall (fun tk => f_is_finite (st_score tk) = true) vocab).
  { destruct HG as (entries & _ & E). unfold generate_from in E. cbv zeta in E.
    destruct (push_loop _ _ _) as [st| | |]; try discriminate. cbn [bind] in E. destruct (push_loop _ _ _) as [st'| | |]; try discriminate. cbn [bind] in E.
    destruct (existsb _ _) eqn:EX; [discriminate|]. injection E as ->. apply Forall_forall. intros tk Hin.
    assert (HN : f_is_normal (st_score tk) = true).
    { destruct (f_is_normal (st_score tk)) eqn:En; [reflexivity|]. assert (existsb (fun t => negb (f_is_normal (st_score t))) (logprobs ln (s2 scored_token (fun a b => fleb (st_score b) (st_score a)) (snd st'))) = true); [|congruence].
      apply existsb_exists. exists tk. split; [exact Hin|]. now rewrite En. }
    unfold f_is_normal, f_is_finite in *. destruct (st_score tk); try discriminate; reflexivity. }
  eexists _, ps. split; [exact (proj2 (proj2 (@C19_round_trip fmt_num num_val codec vocab ps specials Hc Hu HF)) HU)|].
  rewrite tok_new_processors, tok_new_specials. split; [|now split].
  unfold generate_inputs in HI. destruct (load_processors processors) as [ps'| | |]; try discriminate. cbn [bind] in HI.
  repeat match type of HI with bind ?x _ = _ => destruct x; try discriminate; cbn [bind] in HI end. now injection HI as -> _.
Qed.
Print Assumptions C51_generated_loads.

(** An example: the single bytes, generated without any sources, then passed through filter. *)
Definition exc_generate : res (bytes * bytes) -> Prop :=
  generate_cmd (fun _ => None) (fun _ => true) exc_f64 exc_norm ex_fmt ex_num (fun _ => None) (fun _ => None) exg_ln 8 insertion_sort insertion_sort (B "out") 300 [] [B "nfc"] ex_sps [] [] None None f1 2.
Lemma exc_generated : exists contents, exc_generate (Ok (B "out", contents)).
Proof.
  set (g := gen_new 2 f1 None None [] []).
  assert (E : match generate_from exg_ln insertion_sort insertion_sort g [] 300 with Ok v => length v | _ => 0 end = 255) by (vm_compute; reflexivity).
  destruct (generate_from exg_ln insertion_sort insertion_sort g [] 300) as [vocab| | |] eqn:EV; [|discriminate E|discriminate E|discriminate E]. clear E.
  exists (save_contents ex_fmt (tok_new (model_from vocab) [Unicode Nfc] ex_sps)).
  eapply then_ok with (a := ([Unicode Nfc], [], None, None, [], [])); [reflexivity|]. apply then_ok with (a := g); [apply feeds_done|].
  apply then_ok with (a := vocab); [|reflexivity]. exists []. split; [constructor|]. now rewrite EV.
Qed.
Example C51_example : exists contents t, Made ex_fmt ex_num contents /\ from_file ex_num (Some contents) = Ok t /\ tk_processors t = [Unicode Nfc] /\ tk_specials t = first_occurrences ex_sps.
Proof.
  destruct exc_generated as (c & H). assert (HU : Forall Utf8 ex_sps) by apply ex_tok_fits. unfold exc_generate in H.
  destruct (C51_generated_loads ex_codec ex_unescaped HU H) as (t & ps & HL & Hp & Ep & Es). injection Hp as <-.
  exists c, t. split; [|auto]. eapply Made_generate; [| |exact HU|exact H]; apply insertion_sort_valid.
Qed.
