(** What a command line does (src/cli.rs): C65. *)
From Coq Require Import Reals Lra Permutation Sorting.Sorted.
From Flocq Require Import Core.Core IEEE754.BinarySingleNaN.
From Coq.Strings Require Import String.
From Verif Require Import Base BaseProofs F64 F64Proofs FloatErr Utf8 SpecUtf8 Utf8Proofs Trie Model ModelProofs ModelFacts SpecModel Processor ProcessorProofs Tokenizer TokenizerProofs TokenizerFacts.
From Verif Require Import SpecJson Json Serde SpecSerde Sort SortProofs Par ParProofs Filter PropFilter Merge PropMerge Generate GenerateProofs PropGenerate Mine MineProofs PropPar Prune PropPrune Patterns Cli SpecCli CliProofs PropCli PropFiles.
From Verif Require Import PropModel PropTokenizer PropSerde Args SpecArgs ArgsProofs PropArgs.
Set Implicit Arguments.
Local Open Scope string_scope.
Local Open Scope list_scope.
Local Open Scope nat_scope.
Notation length := List.length (only parsing).
Local Ltac splits := repeat match goal with |- _ /\ _ => split end.

(** ** The defaults *)
Lemma literal_nearest n d q : (Z.abs n <= 100)%Z -> (0 < d <= 100)%Z -> q = (IZR n / IZR d)%R -> Nearest q (literal n d).
Proof.
  intros Hn Hd ->. destruct (of_Z_exact n) as [Fn En]; [lia|]. destruct (of_Z_exact d) as [Fd Ed]; [lia|].
  assert (Hd1 : (1 <= IZR d)%R) by (apply IZR_le; lia). assert (Hn1 : (Rabs (IZR n) <= 100)%R) by (rewrite <- abs_IZR; apply IZR_le; exact Hn).
  assert (Hz : B2R (f64_of_Z d) <> 0%R) by (rewrite Ed; lra).
  assert (H := Bdiv_correct prec64 emax64 _ _ mode_NE (f64_of_Z n) (f64_of_Z d) Hz). rewrite En, Ed in H.
  rewrite Rlt_bool_true in H.
  - destruct H as (E & F & _). split; [|exact E]. unfold literal, fdiv. rewrite F. exact Fn.
  - apply rnd_fits. unfold Rdiv. rewrite Rabs_mult. assert (Hi : (0 <= Rabs (/ IZR d) <= 1)%R).
    { split; [apply Rabs_pos|]. rewrite Rabs_pos_eq; [|left; apply Rinv_0_lt_compat; lra]. rewrite <- Rinv_1. apply Rinv_le; lra. }
    apply Rle_trans with 100%R; [|apply le_huge; lra]. assert (H0 := Rabs_pos (IZR n)). nra.
Qed.
Lemma nearest_unique q x y : (1 / 100 <= q)%R -> Nearest q x -> Nearest q y -> x = y.
Proof.
  intros Hq [Fx Ex] [Fy Ey]. assert (Hp : (0 < rnd64 q)%R).
  { apply Rlt_le_trans with (bpow radix2 (-7)); [apply bpow_gt_0|]. apply round_ge_generic; [apply (fexp_correct prec64 emax64); exact prec64_gt_0|apply valid_rnd_N| |].
    - apply generic_format_bpow. unfold SpecFloat.fexp, SpecFloat.emin, prec64, emax64; simpl; lia.
    - replace (bpow radix2 (-7)) with (/ 128)%R by (simpl; lra). lra. }
  assert (HS : forall z : f64, is_finite z = true -> B2R z = rnd64 q -> is_finite_strict z = true /\ Bsign z = false).
  { intros z Fz Ez. destruct z as [s| | |s m e Hm]; try discriminate; [cbn in Ez; lra|]. split; [reflexivity|]. destruct s; [|reflexivity]. exfalso.
    assert (H : (B2R (B754_finite true m e Hm) < 0)%R) by (cbn [B2R]; apply F2R_lt_0; reflexivity). lra. }
  destruct (HS x Fx Ex) as [Sx Nx]. destruct (HS y Fy Ey) as [Sy Ny]. apply B2R_Bsign_inj; congruence.
Qed.

Lemma vals_snoc l gs long v : vals l (gs ++ [(B long, v)]) = vals l gs ++ (if bytes_eqb (B long) (B l) then [v] else []).
Proof. unfold vals. rewrite filter_app, map_app. cbn [filter fst]. now destruct (bytes_eqb _ _). Qed.
Lemma allow_joined texts :
  allow_text texts = List.concat (match map (fun text => B "^(?:" ++ text ++ B ")$") texts with [] => [] | t :: ts => t :: map (fun t => B "|" ++ t) ts end).
Proof.
  unfold allow_text. assert (E : map (fun r => B "^" ++ grouped r ++ B "$") texts = map (fun text => B "^(?:" ++ text ++ B ")$") texts).
  { apply map_ext. intros r. unfold grouped. rewrite <- !app_assoc. reflexivity. }
  rewrite E. generalize (map (fun text => B "^(?:" ++ text ++ B ")$") texts) as l. clear. induction l as [|t l IH]; [reflexivity|]. destruct l as [|t' l]; [cbn; now rewrite app_nil_r|].
  change (intercalate (B "|") (t :: t' :: l)) with (t ++ B "|" ++ intercalate (B "|") (t' :: l)). rewrite IH. cbn [map List.concat]. now rewrite <- !app_assoc.
Qed.
Local Ltac dflt Go H1 H2 k names t v P :=
  apply (Go k names t v);
  [reflexivity
  |eexists; split; [|first [apply H1|apply H2]]; cbn [flags_of In]; unfold flag; repeat (first [left; reflexivity|right])
  |cbv [opts manual find cname String.eqb Ascii.eqb fst snd Bool.eqb]; cbn [In]; repeat (first [left; reflexivity|right])
  |cbn [In]; repeat (first [left; reflexivity|right])
  |unfold value_from_str; first [rewrite P; reflexivity|vm_compute; reflexivity]
  |let gs := fresh "gs" in let Hc := fresh "Hc" in let Hg := fresh "Hg" in intros gs Hc Hg; cbn [finish] in Hc |- *; rewrite !vals_snoc;
   repeat match goal with |- context [bytes_eqb (B ?a) (B ?b)] => let r := eval vm_compute in (bytes_eqb (B a) (B b)) in change (bytes_eqb (B a) (B b)) with r end;
   cbv iota; rewrite ?app_nil_r; rewrite Hg in Hc |- *; cbn [app strings usizes f64s bools flat_map optional] in Hc |- *;
   repeat match type of Hc with obind ?e _ = Some _ => destruct e eqn:?; cbn [obind] in Hc |- *; [|discriminate Hc] end;
   injection Hc as <-; eexists; split; [reflexivity|reflexivity]].
(** *** What is counted in the sources *)
Lemma new_keys max p split allow added suggested x : In x (map fst (g_frequencies (gen_new max p split allow added suggested))) -> In x added \/ In x suggested.
Proof.
  unfold gen_new. cbn [g_frequencies].
  destruct (add_counts_keys _ bytes_eqb_spec (map (fun t => (t, 1)) added) [] (NoDup_nil _)) as [D1 K1].
  destruct (add_counts_keys _ bytes_eqb_spec (map (fun t => (t, 1)) suggested) _ D1) as [D2 K2]. rewrite K2, K1, !map_map. cbn [fst]. rewrite !map_id. cbn [map In]. tauto.
Qed.
Lemma feeds_keys threads g ss r : feeds threads g ss r -> Fed g -> forall g', r = Ok g' -> Forall (fun s => PropGenerate.strings g (so_samples s)) ss ->
  g_added g' = g_added g /\ g_suggested g' = g_suggested g /\
  forall x, In x (map fst (g_frequencies g')) -> In x (map fst (g_frequencies g)) \/ exists s sample, In s ss /\ In sample (so_samples s) /\ Counted g x sample.
Proof.
  induction 1 as [g|g s ss g1 r Hs _ IH|g s ss Hs]; intros Hg g' E HU; [injection E as <-; auto| |discriminate].
  inversion HU as [|? ? HU1 HU2]; subst. assert (Hg1 := Fed_more Hg Hs). assert (HK := Fed_ok Hg). destruct (feed_spec (proj1 HK) Hs) as (_ & _ & Eg & _).
  assert (HF : g_max_token_length g1 = g_max_token_length g /\ g_split g1 = g_split g /\ g_allow g1 = g_allow g /\ g_added g1 = g_added g /\ g_suggested g1 = g_suggested g) by (rewrite Eg; cbn; auto).
  destruct HF as (F1 & F2 & F3 & F4 & F5).
  destruct (IH Hg1 g' eq_refl) as (A1 & A2 & A3). { eapply Forall_impl; [|exact HU2]. unfold PropGenerate.strings. now rewrite F2. }
  split; [congruence|]. split; [congruence|]. intros x Hx. destruct (A3 x Hx) as [Hx1|(s' & sample & H1 & H2 & H3)].
  - destruct (@C33_only_permitted _ _ _ _ _ Hg HU1 Hs Hx1) as [H|(sample & H1 & H2)]; [now left|]. right. exists s, sample. split; [now left|auto].
  - right. exists s', sample. split; [now right|]. split; [exact H2|]. unfold Counted, Part, Candidate in *. now rewrite F1, F2, F3, F4, F5 in H3.
Qed.
Lemma source_Utf8 fs parse_f64 normalize ps src s : (forall f s, Utf8 s -> Utf8 (normalize f s)) -> load_source fs parse_f64 normalize ps src = Ok s -> Forall Utf8 (so_samples s).
Proof.
  intros HN. unfold load_source. destruct (split_on x3a src) as [|name [|path more]]; try discriminate.
  destruct (match more with [] => Ok f1 | [s] => some (parse_f64 s) | _ => Panic end) as [pr| | |]; try discriminate. cbn [bind]. destruct (fs path) as [contents|]; [|discriminate]. cbn [some bind].
  destruct (file_samples contents) as [samples| | |] eqn:E; try discriminate. cbn [bind]. intros H. injection H as <-. cbn [so_samples].
  assert (HS : Forall Utf8 samples).
  { unfold file_samples in E. destruct (map_res _ _) as [pieces| | |] eqn:Em; try discriminate. cbn [bind] in E. injection E as <-. apply map_res_ok in Em. apply Forall_forall. intros x Hx. apply filter_In in Hx as [Hx _].
    clear - Em Hx. induction Em as [|a c l l' Ha _ IH]; [contradiction|]. destruct Hx as [->|Hx]; [|now apply IH]. destruct (utf8_ok a) eqn:Eu; [|discriminate]. injection Ha as <-. now apply utf8_ok_spec. }
  apply Forall_forall. intros x Hx. apply filter_In in Hx as [Hx _]. apply in_map_iff in Hx as (y & <- & Hy). rewrite Forall_forall in HS.
  apply (preprocess_all_valid normalize HN ps). apply HS. rewrite <- (firstn_skipn (f64_as_usize (fmul (f64_of_nat (List.length samples)) pr)) samples). apply in_or_app. now left.
Qed.

Section P.
  Variable parse_f64 : bytes -> option f64.
  Variable fs : bytes -> option bytes.
  Variable writable : bytes -> bool.
  Variable normalize : unicode_form -> bytes -> bytes.
  Variable fmt_num : f64 -> bytes.
  Variable num_val : bytes -> option f64.
  Variable regex_new : bytes -> option ((bytes -> bool) * (bytes -> list bytes)).
  Variable fancy_new : bytes -> option (bytes -> list (option bytes)).
  Variables (exp ln : f64 -> f64).
  Variable threads : nat.
  Variables (s1 s2 : sorter) (fuel : nat).
  Local Notation main := (main parse_f64 fs writable normalize fmt_num num_val regex_new fancy_new exp ln threads s1 s2 fuel).
  Local Notation run := (run parse_f64 fs writable normalize fmt_num num_val regex_new fancy_new exp ln threads s1 s2 fuel).

  (** To leave out an option is to give it its default. *)
  Theorem C65_defaults : forall name ps long text c o, Reads_fractions parse_f64 -> In (name, long, text) defaults ->
    parse_args parse_f64 (B name :: line ps) = PCommand c ->
    (forall os names t, In (name, os) manual -> In (names, t) os -> In long names -> given names ps = []) ->
    main (B name :: line (ps ++ [(B long, B text)])) o <-> main (B name :: line ps) o.
  Proof.
    intros name ps long text c o HF HD HP HG. unfold main. 
    assert (HE : exists c', parse_args parse_f64 (B name :: line (ps ++ [(B long, B text)])) = PCommand c' /\ run c' = run c); [|destruct HE as (c' & -> & E); now rewrite HP, E].
    assert (HX : line (ps ++ [(B long, B text)]) = line ps ++ [B long; B text]) by (unfold line; rewrite flat_map_app; reflexivity). rewrite HX. clear HX.
    assert (HPc : forall k rest, name = cname k -> parse_args parse_f64 (B name :: rest) = parse_flags parse_f64 k [] rest).
    { intros k rest ->. unfold parse_args. assert (Ef : is_flag (B (cname k)) = false) by (destruct k; reflexivity). rewrite Ef.
      assert (E : cmd_named (B (cname k)) = Some k) by (now apply cmd_named_iff). now rewrite E. }
    assert (HK : forall k names t onames v, name = cname k -> In (names, B long, t) (flags_of k) -> same_option (names, B long, t) (onames, t) -> In (onames, t) (opts k) -> In long onames -> value_from_str parse_f64 t (B text) = Some v ->
      exists gs, finish k gs = Some c /\ vals long gs = [] /\ parse_args parse_f64 (B name :: line ps ++ [B long; B text]) = match finish k (gs ++ [(B long, v)]) with Some x => PCommand x | None => PUsage end).
    { intros k names t onames v Ek Hin HS Ho Hl Hv. rewrite (HPc k) in HP |- * by exact Ek. apply parse_flags_iff in HP as (ps0 & gs & E & HR & HC). apply line_inj in E as <-.
      exists gs. split; [exact HC|]. split.
      - assert (HV := @reads_values parse_f64 k names long t onames ps gs Hin HS HR). rewrite (HG (opts k) onames t) in HV; [now inversion HV|subst name; now apply manual_opts|exact Ho|exact Hl].
      - rewrite (parse_reads HR). cbn [app]. rewrite parse_step. assert (Hf : In (B long) names) by (exact (@long_own k (names, B long, t) Hin)).
        destruct (@flag_names k _ (B long) Hin Hf) as [H1 H2]. rewrite H1, H2. assert (E := proj2 (find_flag k (B long) (names, B long, t)) (conj Hin Hf)). rewrite E. rewrite Hv. reflexivity. }
    assert (H1 : forall long t, same_option (flag "" long t) ([long], t)).
    { intros l t. split; [reflexivity|]. split; [reflexivity|]. now left. }
    assert (H2 : forall a short long t, same_option (flag (String a short) long t) ([String a short; long], t)).
    { intros a short l t. split; [reflexivity|]. split; [|right; now left]. intros f. cbn [flag fst map In]. tauto. }
    assert (HL : forall x n d q, (Z.abs n <= 100)%Z -> (0 < d <= 100)%Z -> q = (IZR n / IZR d)%R -> (1 / 100 <= q)%R -> Nearest q x -> x = literal n d).
    { intros x n d q Hn Hd Hq Hm Hx. eapply nearest_unique; [exact Hm|exact Hx|]. now apply literal_nearest. }
    unfold Reads_fractions in HF. inversion HF as [|? ? (x1 & P1 & N1) HF1]; subst. inversion HF1 as [|? ? (x2 & P2 & N2) HF2]; subst. inversion HF2 as [|? ? (x3 & P3 & N3) HF3]; subst. inversion HF3 as [|? ? (x4 & P4 & N4) _]; subst.
    clear HF HF1 HF2 HF3. cbn [fst snd] in *.
    apply (HL _ 1%Z 10%Z) in N1; [|lia|lia|reflexivity|lra]. apply (HL _ 1%Z 100%Z) in N2; [|lia|lia|reflexivity|lra]. apply (HL _ 8%Z 10%Z) in N3; [|lia|lia|reflexivity|lra]. apply (HL _ 9%Z 10%Z) in N4; [|lia|lia|reflexivity|lra]. subst x1 x2 x3 x4. clear HL.
    unfold defaults in HD. cbn [In] in HD.
    assert (Go : forall k onames t v, name = cname k -> (exists names, In (names, B long, t) (flags_of k) /\ same_option (names, B long, t) (onames, t)) -> In (onames, t) (opts k) -> In long onames -> value_from_str parse_f64 t (B text) = Some v ->
       (forall gs, finish k gs = Some c -> vals long gs = [] -> exists c', finish k (gs ++ [(B long, v)]) = Some c' /\ run c' = run c) ->
       exists c', parse_args parse_f64 (B name :: line ps ++ [B long; B text]) = PCommand c' /\ run c' = run c).
    { intros k onames t v Ek (names & Hin & HS) Ho Hl Hv H. destruct (HK k names t onames v Ek Hin HS Ho Hl Hv) as (gs & Hc & Hg & E). destruct (H gs Hc Hg) as (c' & E' & Er). rewrite E' in E. eauto. }
    clear HK HP HPc.
    repeat (destruct HD as [HD|HD]; [injection HD as <- <- <-|]); [..|contradiction].
    - dflt Go H1 H2 CGenerate ["--insert-probability"] TF64 (VF64 (literal 1 10)) P1.
    - dflt Go H1 H2 CGenerate ["--max-token-length"] TUsize (VUsize 24) P1.
    - dflt Go H1 H2 CPrune ["--dropout"] TF64 (VF64 (literal 1 100)) P2.
    - dflt Go H1 H2 CPrune ["--shrink-factor"] TF64 (VF64 (literal 8 10)) P3.
    - dflt Go H1 H2 CPrune ["--em-subiters"] TUsize (VUsize 1) P1.
    - dflt Go H1 H2 CFilter ["-v"; "--vocab-size"] TUsize (VUsize 0) P1.
    - dflt Go H1 H2 CFilter ["--force"] TBool (VBool false) P1.
    - dflt Go H1 H2 CMerge ["--num-merges"] TUsize (VUsize 1000) P1.
    - dflt Go H1 H2 CMerge ["--step"] TUsize (VUsize 50) P1.
    - dflt Go H1 H2 CMerge ["--scale-factor"] TF64 (VF64 (literal 9 10)) P4.
    - dflt Go H1 H2 CMerge ["--max-token-length"] TUsize (VUsize 24) P1.
  Qed.

  (** ** The commands *)
  Lemma called name ps o : main (B name :: line ps) o -> (o = Help \/ o = Usage) \/ exists c, name_of c = name /\ Calls parse_f64 ps c /\ run c o.
  Proof.
    unfold main. destruct (parse_args _ _) as [| |c] eqn:E; [intros <-; auto|intros <-; auto|]. intros H. right. apply parse_iff in E as (ps' & E & HC). injection E as E0 E. apply B_inj in E0. apply line_inj in E as <-. eauto.
  Qed.
  Lemma one_text l a : Forall2 (Means parse_f64 TString) l (one VString a) -> l = [a].
  Proof. intros H. inversion H as [|s v l' vs HM HR]; subst. inversion HR; subst. now inversion HM; subst. Qed.
  Lemma maybe_text l a : Forall2 (Means parse_f64 TString) l (perhaps VString a) -> l = match a with Some s => [s] | None => [] end.
  Proof. destruct a as [a|]; [apply one_text|]. intros H. now inversion H. Qed.
  Lemma all_texts l a : Forall2 (Means parse_f64 TString) l (map VString a) -> a = l.
  Proof. revert l. induction a as [|x a IH]; intros l H; inversion H as [|s v l' vs HM HR]; subst; [reflexivity|]. rewrite (IH _ HR). now inversion HM; subst. Qed.
  Lemma one_size names ps a d : Forall2 (Means parse_f64 TUsize) (given names ps) (one VUsize a) -> Size names ps d a.
  Proof. intros H. unfold Size. inversion H as [|s v l' vs HM HR]; subst. inversion HR; subst. inversion HM; subst. eauto. Qed.
  Lemma maybe_size names ps a d : Forall2 (Means parse_f64 TUsize) (given names ps) (perhaps VUsize a) -> Size names ps (Some d) (unwrap_or a d).
  Proof. destruct a as [a|]; [apply one_size|]. intros H. unfold Size. inversion H. reflexivity. Qed.
  Lemma maybe_number names ps a d q : Nearest q d -> Forall2 (Means parse_f64 TF64) (given names ps) (perhaps VF64 a) -> Number parse_f64 names ps q (unwrap_or a d).
  Proof. intros Hq. destruct a as [a|]; intros H; unfold Number; inversion H as [|s v l' vs HM HR]; subst; [|exact Hq]. inversion HR; subst. now inversion HM; subst. Qed.
  Lemma number_only names ps a : Forall2 (Means parse_f64 TF64) (given names ps) (perhaps VF64 a) ->
    match a with Some x => exists s, given names ps = [s] /\ parse_f64 s = Some x | None => given names ps = [] end.
  Proof. destruct a as [a|]; intros H; inversion H as [|s v l' vs HM HR]; subst; [|reflexivity]. inversion HR; subst. inversion HM; subst. eauto. Qed.
  Lemma forced names ps a : Forall2 (Means parse_f64 TBool) (given names ps) (perhaps VBool a) -> unwrap_or a false = true -> given names ps = [B "true"].
  Proof. destruct a as [a|]; intros H Ha; [|discriminate]. inversion H as [|s v l' vs HM HR]; subst. inversion HR; subst. cbn in Ha. subst a. now inversion HM; subst. Qed.

  Local Ltac split_call H :=
    destruct H as (os & Hos & _ & H); rewrite name_cmd in Hos; apply manual_opts in Hos; subst os;
    cbv [opts manual find cname cmd_of String.eqb Ascii.eqb fst snd Bool.eqb] in H; cbn [settings] in H;
    repeat match goal with H : Forall2 _ (_ :: _) (_ :: _) |- _ => let K1 := fresh "K" in let K2 := fresh in inversion H as [|? ? ? ? K1 K2]; subst; clear H; destruct K1 as [_ K1]; cbn [fst snd] in K1 end.

  (** src/cli.rs: filter. *)
  Theorem C65_filter : forall ps path contents, valid_sorter s1 -> valid_sorter s2 ->
    main (B "filter" :: line ps) (Runs (Ok (path, contents))) ->
    Text ["-o"; "--output"] ps path /\ exists input size, Text ["-i"; "--input"] ps input /\ Size ["-v"; "--vocab-size"] ps (Some 0) size /\
    Rewrites fmt_num num_val (fs input) path (fun t m' =>
      (* nothing is removed that brings the vocabulary below the size *)
      Nat.min (vocab_size (tk_model t)) size <= vocab_size m' /\
      (vocab_size (tk_model t) <= size -> m' = tk_model t) /\
      (* and only tokens that are not protected, or with [--force true], and that have no score above the minimum *)
      (exists removed, Permutation (m_vocab (tk_model t)) (m_vocab m' ++ removed) /\
        Forall (fun tok => (st_keep tok = false \/ given ["--force"] ps = [B "true"]) /\
          match given ["--min-score"] ps with
          | [] => fltb fninf (st_score tok) = false
          | s :: _ => exists x, parse_f64 s = Some x /\ fltb x (st_score tok) = false
          end) removed)) (path, contents).
  Proof.
    intros ps path contents H1 H2 H. apply called in H as [[H|H]|(c & Hn & HC & H)]; try discriminate. destruct c; try discriminate Hn. clear Hn.
    destruct f as [i o v m f]. split_call HC. cbn [Args.run ff_input ff_output ff_vocab_size ff_min_score ff_force] in H. injection H as H. symmetry in H. apply C49_filter in H.
    apply one_text in K, K0. apply (@maybe_size _ _ _ 0) in K1. apply number_only in K2.
    assert (o = path) as -> by (destruct H as (t & t' & _ & E & _); congruence). split; [exact K0|]. exists i, (unwrap_or v 0). split; [exact K|]. split; [exact K1|].
    destruct H as (t & t' & HL & E & E1 & E2 & E3 & HF). exists t, t'. do 5 (split; [assumption|]).
    assert (HS := @C25_filter_is_safe _ _ _ _ _ H1 H2 HF). destruct HS as (S1 & S2 & removed & S3 & S4). cbn [fc_vocab_size] in *. split; [exact S2|]. split; [exact S1|].
    exists removed. split; [exact S3|]. apply Forall_forall. intros tok Hin. rewrite Forall_forall in S4. destruct (S4 tok Hin) as [A1 A2]. cbn [fc_force fc_min_score] in *. split.
    - destruct (st_keep tok); [|now left]. right. exact (@forced _ _ _ K3 (A1 eq_refl)).
    - destruct m as [x|]; [destruct K2 as (s & -> & Ex); eauto|]. now rewrite K2.
  Qed.
  (** src/cli.rs: prune. *)
  Theorem C65_prune : forall ps path contents, valid_sorter s1 -> valid_sorter s2 ->
    main (B "prune" :: line ps) (Runs (Ok (path, contents))) ->
    Text ["-o"; "--output"] ps path /\ exists input size dropout shrink_factor em_subiters,
    Text ["-i"; "--input"] ps input /\ Size ["-v"; "--vocab-size"] ps None size /\ Number parse_f64 ["--dropout"] ps (1 / 100) dropout /\
    Number parse_f64 ["--shrink-factor"] ps (8 / 10) shrink_factor /\ Size ["--em-subiters"] ps (Some 1) em_subiters /\
    Rewrites fmt_num num_val (fs input) path (fun t m' =>
      vocab_size m' <= size /\
      (exists removed, Permutation (map (fun t => (st_value t, st_keep t)) (m_vocab m') ++ removed) (map (fun t => (st_value t, st_keep t)) (m_vocab (tk_model t))) /\
        Forall (fun x => snd x = false) removed) /\
      exists sources samples, load_sources fs parse_f64 normalize (given ["--train"] ps) (tk_processors t) = Ok sources /\
        Permutation (List.concat (map so_samples sources)) samples /\
        prune_result exp ln threads s1 s2 fuel (PruneCfg size shrink_factor em_subiters dropout) samples (tk_model t) (Ok m')) (path, contents).
  Proof.
    intros ps path contents H1 H2 H. apply called in H as [[H|H]|(c & Hn & HC & H)]; try discriminate. destruct c; try discriminate Hn. clear Hn.
    destruct f as [i o v tr d sh em]. split_call HC. cbn [Args.run pf_input pf_output pf_vocab_size pf_train pf_dropout pf_shrink_factor pf_em_subiters] in H. destruct H as (r & E & H). injection E as <-. apply C49_prune in H.
    apply one_text in K, K0. apply (@one_size _ _ _ None) in K1. apply all_texts in K2. subst tr.
    apply (@maybe_number _ _ _ (literal 1 100) (1 / 100)) in K3; [|apply literal_nearest; [lia|lia|reflexivity]].
    apply (@maybe_number _ _ _ (literal 8 10) (8 / 10)) in K4; [|apply literal_nearest; [lia|lia|reflexivity]]. apply (@maybe_size _ _ _ 1) in K5.
    assert (o = path) as -> by (destruct H as (t & t' & _ & E & _); congruence). split; [exact K0|]. exists i, v, (unwrap_or d (literal 1 100)), (unwrap_or sh (literal 8 10)), (unwrap_or em 1). do 5 (split; [assumption|]).
    destruct H as (t & t' & HL & E & E1 & E2 & E3 & sources & samples & HS & HP & HR). exists t, t'. do 5 (split; [assumption|]).
    assert (HC := @C36_result _ _ _ _ _ _ _ _ _ _ H1 H2 HR). destruct HC as [C1 C2]. cbn [pc_vocab_size] in C1. split; [exact C1|]. split; [exact C2|]. eauto.
  Qed.
  (** src/cli.rs: merge. *)
  Theorem C65_merge : forall ps path contents, valid_sorter s1 ->
    main (B "merge" :: line ps) (Runs (Ok (path, contents))) ->
    Text ["-o"; "--output"] ps path /\ given ["--train"] ps <> [] /\ exists input allow re num_merges step scale_factor max,
    Text ["-i"; "--input"] ps input /\ Text ["--allow"] ps allow /\ load_regex fs regex_new allow = Ok re /\ Size ["--num-merges"] ps (Some 1000) num_merges /\ Size ["--step"] ps (Some 50) step /\
    Number parse_f64 ["--scale-factor"] ps (9 / 10) scale_factor /\ Size ["--max-token-length"] ps (Some 24) max /\
    Rewrites fmt_num num_val (fs input) path (fun t m' => exists sources samples, 
      load_sources fs parse_f64 normalize (given ["--train"] ps) (tk_processors t) = Ok sources /\ Permutation (List.concat (map so_samples sources)) samples /\
      let c := MergeCfg (fst re) num_merges step scale_factor max in
      merge_result s1 threads c (tk_model t) samples (Ok m') /\
      (merge_fits c (m_vocab (tk_model t)) -> exists added, m_vocab m' = m_vocab (tk_model t) ++ added /\ length added <= num_merges /\
         forall i tok, nth_error added i = Some tok -> exists j, j <= i /\ MergeOf c samples (m_vocab (tk_model t) ++ firstn j added) tok)) (path, contents).
  Proof.
    intros ps path contents H1 H. apply called in H as [[H|H]|(c & Hn & HC & H)]; try discriminate. destruct c; try discriminate Hn. clear Hn.
    destruct f as [i o tr al nm st sf mx]. split_call HC. cbn [Args.run mf_input mf_output mf_train mf_allow mf_num_merges mf_step mf_scale_factor mf_max_token_length] in H. destruct H as (r & E & H). injection E as <-.
    assert (HT : tr <> []) by (intros ->; unfold merge_cmd in H; apply then_inv in H as (? & H & _); discriminate). apply C49_merge in H.
    apply one_text in K, K0, K2. apply all_texts in K1. subst tr. apply (@maybe_size _ _ _ 1000) in K3. apply (@maybe_size _ _ _ 50) in K4. apply (@maybe_size _ _ _ 24) in K6.
    apply (@maybe_number _ _ _ (literal 9 10) (9 / 10)) in K5; [|apply literal_nearest; [lia|lia|reflexivity]].
    assert (o = path) as -> by (destruct H as (t & t' & _ & E & _); congruence). split; [exact K0|]. split; [exact HT|].
    destruct H as (t & t' & HL & E & E1 & E2 & E3 & sources & re & samples & HS & Hre & HP & HR).
    exists i, al, re, (unwrap_or nm 1000), (unwrap_or st 50), (unwrap_or sf (literal 9 10)), (unwrap_or mx 24). do 7 (split; [assumption|]).
    exists t, t'. do 5 (split; [assumption|]). exists sources, samples. do 3 (split; [assumption|]). intros HFit.
    destruct (loaded_form _ _ HL) as (vocab & ps' & sps & Et & _). assert (Em : tk_model t = model_from vocab) by (subst t; apply tok_new_model). rewrite Em in *. rewrite model_from_vocab in *.
    destruct (@C27_merge_appends _ _ _ _ _ _ H1 HFit HR) as (added & _ & A1 & A2 & A3). exists added. auto.
  Qed.

  (** src/cli.rs: regex. *)
  Theorem C65_regex : forall ps o, main (B "regex" :: line ps) o -> o <> Help -> o <> Usage ->
    match given ["-o"; "--output"] ps with
    | [] => (* the list of the patterns *)
        exists lines, o = Prints (List.concat lines) /\ Forall2 (fun p l => l = fst p ++ B ": " ++ snd p ++ [x0a]) patterns lines
    | [path] =>
        o = Runs Panic \/
        exists texts, Forall2 (fun name text => Names name text /\ regex_new text <> None) (given ["-p"; "--pattern"] ps) texts /\
          let written := List.concat (match map (fun text => B "^(?:" ++ text ++ B ")$") texts with [] => [] | t :: ts => t :: map (fun t => B "|" ++ t) ts end) in
          regex_new written <> None /\ o = Runs (Ok (path, written))
    | _ => False
    end.
  Proof.
    intros ps o H Hh Hu. apply called in H as [[H|H]|(c & Hn & HC & H)]; try congruence. destruct c; try discriminate Hn. clear Hn.
    destruct f as [out pats]. split_call HC. cbn [Args.run rf_output rf_pattern] in H. apply maybe_text in K. apply all_texts in K0. subst pats. rewrite K. destruct out as [path|].
    - subst o. unfold regex_cmd. destruct (proj2 (C58_patterns regex_new (given ["-p"; "--pattern"] ps))) as [[texts E]|E]; [|rewrite E; now left]. rewrite E. cbn [bind].
      apply C58_patterns in E. destruct (regex_new (allow_text texts)) as [re|] eqn:Er; [|now left]. cbn [bind some]. unfold write_file. destruct (writable path); [|now left]. right.
      exists texts. split; [exact E|]. cbv zeta. rewrite <- allow_joined. split; [congruence|reflexivity].
    - subst o. unfold pattern_list. eexists. split; [reflexivity|]. clear. induction patterns as [|p l IH]; [constructor|]. cbn [map]. constructor; [reflexivity|exact IH].
  Qed.
  (** src/cli.rs: mine. *)
  Theorem C65_mine : forall codec ps path contents, valid_sorter s1 -> num_codec fmt_num num_val codec ->
    (forall text re sample part, regex_new text = Some re -> In part (snd re sample) -> Utf8 part) ->
    main (B "mine" :: line ps) (Runs (Ok (path, contents))) ->
    Text ["-o"; "--output"] ps path /\ given ["--train"] ps <> [] /\ given ["-p"; "--pattern"] ps <> [] /\ exists num_idioms sources texts re tokens,
      Size ["-n"; "--num-idioms"] ps None num_idioms /\ load_sources fs parse_f64 normalize (given ["--train"] ps) [] = Ok sources /\
      Forall2 (fun name text => Names name text /\ regex_new text <> None) (given ["-p"; "--pattern"] ps) texts /\ regex_new (mine_text texts) = Some re /\
      Token_file num_val (Some contents) tokens /\ length tokens <= num_idioms /\ NoDup tokens /\
      let count := occurrences (snd re) (List.concat (map so_samples sources)) in
      Forall (fun t => 0 < count t) tokens /\ StronglySorted (fun a b => count b <= count a) tokens /\
      (forall t, 0 < count t -> ~ In t tokens -> length tokens = num_idioms /\ Forall (fun t' => count t <= count t') tokens).
  Proof.
    intros codec ps path contents H1 Hc HU H. apply called in H as [[H|H]|(c & Hn & HC & H)]; try discriminate. destruct c; try discriminate Hn. clear Hn.
    destruct f as [n o tr pa]. split_call HC. cbn [Args.run nf_num_idioms nf_output nf_train nf_pattern] in H. destruct H as (r & E & H). injection E as <-.
    apply (@one_size _ _ _ None) in K. apply one_text in K0. apply all_texts in K1, K2. subst tr pa.
    assert (HT : given ["--train"] ps <> [] /\ given ["-p"; "--pattern"] ps <> []).
    { split; intros E; assert (HX := C58_nothing_given fs writable parse_f64 normalize fmt_num num_val regex_new threads s1); apply HX in H; try discriminate; auto. }
    apply (@C58_mine fs writable parse_f64 normalize fmt_num num_val regex_new fancy_new threads s1 codec) in H as (-> & sources & texts & re & tokens & A1 & A2 & A3 & A4); [|exact H1|exact Hc|exact HU].
    split; [exact K0|]. split; [apply HT|]. split; [apply HT|]. exists n, sources, texts, re, tokens. apply C58_patterns in A2. tauto.
  Qed.
  (** src/cli.rs: generate. *)
  Theorem C65_generate : forall ps path contents, valid_sorter s1 -> valid_sorter s2 ->
    (forall f s, Utf8 s -> Utf8 (normalize f s)) -> (forall text split sample part, fancy_new text = Some split -> In (Some part) (split sample) -> Utf8 part) ->
    main (B "generate" :: line ps) (Runs (Ok (path, contents))) ->
    Text ["-o"; "--output"] ps path /\ exists size p max processors sources added suggested allow split vocab,
      Size ["-v"; "--vocab-size"] ps None size /\ Number parse_f64 ["--insert-probability"] ps (1 / 10) p /\ Size ["--max-token-length"] ps (Some 24) max /\
      load_processors (given ["--processor"] ps) = Ok processors /\ load_sources fs parse_f64 normalize (given ["--train"] ps) processors = Ok sources /\
      load_tokens fs num_val (given ["--added"] ps) = Ok added /\ load_tokens fs num_val (given ["--suggested"] ps) = Ok suggested /\
      match given ["--allow"] ps with [] => allow = None | file :: _ => exists re, load_regex fs regex_new file = Ok re /\ allow = Some (fst re) end /\
      match given ["--split"] ps with [] => split = None | file :: _ => exists re, load_fancy_regex fs fancy_new file = Ok re /\ split = Some re end /\
      (* what is written *)
      contents = save_contents fmt_num (tok_new (model_from vocab) processors (given ["--special"] ps)) /\
      (exists g, feeds threads (gen_new max p split allow added suggested) sources (Ok g) /\ generate_result ln s1 s2 g size (Ok vocab)) /\
      (* what is in it *)
      NoDup (map st_value vocab) /\ 255 <= length vocab <= Nat.max 255 size /\
      (forall b, b <> xff -> exists t, In t vocab /\ st_value t = [b] /\ st_keep t = true) /\
      (255 + length added <= size -> forall t, In t added -> 1 < length t -> exists tok, In tok vocab /\ st_value tok = t /\ st_keep tok = true) /\
      (forall tok, In tok vocab -> length (st_value tok) = 1 \/ In (st_value tok) added \/ In (st_value tok) suggested \/
         exists source sample part pre post, In source sources /\ In sample (so_samples source) /\ match split with None => part = sample | Some f => In (Some part) (f sample) end /\
           part = pre ++ st_value tok ++ post /\ Utf8 pre /\ Utf8 (st_value tok) /\ 1 < length (st_value tok) <= max /\
           match allow with None => True | Some f => f (st_value tok) = true end).
  Proof.
    intros ps path contents H1 H2 HN HFU H. apply called in H as [[H|H]|(c & Hn & HC & H)]; try discriminate. destruct c; try discriminate Hn. clear Hn.
    destruct f as [v o pr tr sp su ad al spl ip mx]. split_call HC. cbn [Args.run gf_vocab_size gf_output gf_processor gf_train gf_special gf_suggested gf_added gf_allow gf_split gf_insert_probability gf_max_token_length] in H. destruct H as (r & E & H). injection E as <-.
    apply (@one_size _ _ _ None) in K. apply one_text in K0. apply all_texts in K1, K2, K3, K4, K5. subst pr tr sp su ad. apply maybe_text in K6, K7.
    apply (@maybe_number _ _ _ (literal 1 10) (1 / 10)) in K8; [|apply literal_nearest; [lia|lia|reflexivity]]. apply (@maybe_size _ _ _ 24) in K9.
    apply then_inv in H as ([[[[[procs sources] allow] split] added] suggested] & HI & H). apply then_inv in H as (g & Hg & H). apply then_inv in H as (vocab & HG & H). apply save_inv in H. injection H as E0 E1. subst o.
    split; [exact K0|].
    unfold generate_inputs in HI. destruct (load_processors (given ["--processor"] ps)) as [procs'| | |] eqn:P1; try discriminate. cbn [bind] in HI.
    destruct (load_sources fs parse_f64 normalize (given ["--train"] ps) procs') as [sources'| | |] eqn:P2; try discriminate. cbn [bind] in HI.
    destruct (load_opt (load_regex fs regex_new) al) as [allow'| | |] eqn:P3; try discriminate. cbn [bind] in HI. destruct (load_opt (load_fancy_regex fs fancy_new) spl) as [split'| | |] eqn:P4; try discriminate. cbn [bind] in HI.
    destruct (load_tokens fs num_val (given ["--added"] ps)) as [added'| | |] eqn:P5; try discriminate. cbn [bind] in HI. destruct (load_tokens fs num_val (given ["--suggested"] ps)) as [suggested'| | |] eqn:P6; try discriminate. cbn [bind] in HI.
    injection HI as -> -> -> -> -> ->.
    exists v, (unwrap_or ip (literal 1 10)), (unwrap_or mx 24), procs, sources, added, suggested, (option_map fst allow), split, vocab.
    do 7 (split; [first [assumption|reflexivity]|]).
    split. { rewrite K6. destruct al as [file|]; cbn [load_opt] in P3; [|injection P3 as <-; reflexivity]. destruct (load_regex fs regex_new file) as [re| | |]; try discriminate. injection P3 as <-. exists re. auto. }
    assert (HSp : match given ["--split"] ps with [] => split = None | file :: _ => exists re, load_fancy_regex fs fancy_new file = Ok re /\ split = Some re end).
    { rewrite K7. destruct spl as [file|]; cbn [load_opt] in P4; [|injection P4 as <-; reflexivity]. destruct (load_fancy_regex fs fancy_new file) as [re| | |]; try discriminate. injection P4 as <-. exists re. auto. }
    split; [exact HSp|]. split; [exact E1|]. split; [eauto|].
    set (g0 := gen_new (unwrap_or mx 24) (unwrap_or ip (literal 1 10)) split (option_map fst allow) added suggested) in *.
    assert (HFd := feeds_Fed Hg (Fed_new _ _ _ _ _ _) eq_refl).
    assert (HUs : Forall (fun s => PropGenerate.strings g0 (so_samples s)) sources).
    { apply Forall_forall. intros s Hs. split.
      - apply map_res_ok in P2. clear - P2 Hs HN. induction P2 as [|a c l l' Ha _ IH]; [contradiction|]. destruct Hs as [->|Hs]; [|now apply IH]. exact (@source_Utf8 _ _ _ _ _ _ HN Ha).
      - intros f sample part Ef _ Hin. cbn [g0 gen_new g_split] in Ef. subst split. destruct (given ["--split"] ps) as [|file files]; [discriminate|]. destruct HSp as (re & HL & E). injection E as <-.
        apply C58_load_fancy in HL as (? & text & _ & _ & Hnew). exact (HFU _ _ _ _ Hnew Hin). }
    destruct (feeds_keys Hg (Fed_new _ _ _ _ _ _) eq_refl HUs) as (A1 & A2 & A3). cbn [g0 gen_new g_added g_suggested] in A1, A2.
    destruct (@C31_distinct_bounded _ _ _ _ _ _ H1 H2 HFd HG) as (B1 & B2 & B3 & _). split; [exact B1|]. split; [exact B2|]. split; [exact B3|].
    split. { intros Hs t Ht Hl. rewrite <- A1 in Hs, Ht. exact (@C31_added_kept _ _ _ _ _ _ t H1 H2 HFd HG Hs Ht Hl). }
    destruct (@C31_generate _ _ _ _ _ _ H1 H2 HFd HG) as (order & picks & weighted & O1 & _ & O2 & O3 & _ & O4 & _). cbv zeta in *.
    intros tok Ht. rewrite O4 in Ht. apply in_map_iff in Ht as (w & <- & Hw). cbn [st_value]. apply (Permutation_in _ (Permutation_sym O3)) in Hw. apply in_app_or in Hw as [Hw|Hw]; [apply in_map_iff in Hw as (b & <- & _); now left|].
    apply in_map_iff in Hw as (x & <- & Hx). cbn [weight st_value]. assert (Hx' : In (fst x) (map fst picks)) by (apply in_map; rewrite <- (firstn_skipn (v - 255) picks); apply in_or_app; now left).
    apply FirstsOf_spec in O2 as [_ O2]. destruct (O2 _ Hx') as [HL Hp]. right. unfold preferred in Hp. rewrite !map_app, !map_map in Hp. cbn [fst] in Hp. rewrite !map_id, A1, A2 in Hp.
    apply in_app_or in Hp as [Hp|Hp]; [now left|]. apply in_app_or in Hp as [Hp|Hp]; [right; now left|]. apply (Permutation_in _ (Permutation_sym O1)) in Hp. apply A3 in Hp as [Hp|(s & sample & Q1 & Q2 & Q3)].
    { apply new_keys in Hp. tauto. }
    destruct Q3 as [(part & Q4 & (pre & post & Q5 & Q6) & Q7 & _ & Q8 & Q9)|[Q3 _]]; [|cbn in Q3; tauto]. right. right. exists s, sample, part, pre, post. auto 20.
  Qed.
  (** src/cli.rs: encode and decode are still to be written. *)
  Theorem C65_todo : forall name ps o, In name ["encode"; "decode"] -> main (B name :: line ps) o -> o = Help \/ o = Usage \/ o = Runs Panic.
  Proof.
    intros name ps o Hin H. apply called in H as [[H|H]|(c & Hn & HC & H)]; [auto|auto|]. right. right. destruct Hin as [<-|[<-|[]]]; destruct c; try discriminate Hn; exact H.
  Qed.
End P.
Print Assumptions C65_defaults.
Print Assumptions C65_filter.
Print Assumptions C65_prune.
Print Assumptions C65_merge.
Print Assumptions C65_regex.
Print Assumptions C65_mine.
Print Assumptions C65_generate.
Print Assumptions C65_todo.

(** ** Examples *)
Definition exm_f64 (s : bytes) : option f64 :=
  if bytes_eqb s (B "-13.0") then Some (f64_of_Z (-13)) else if bytes_eqb s (B "inf") then Some finf else if bytes_eqb s (B "1") then Some f1
  else if bytes_eqb s (B "0.5") then Some fhalf else if bytes_eqb s (B "0") then Some f0 else None.
Definition exm_new (text : bytes) : option ((bytes -> bool) * (bytes -> list bytes)) := Some (fun _ => true, map (fun b => [b])).
Definition exm_main (fs : bytes -> option bytes) (args : list string) : outcome -> Prop :=
  main exm_f64 fs (fun _ => true) exc_norm ex_fmt ex_num exm_new (fun _ => None) (fun x => x) exg_ln 8 insertion_sort insertion_sort 7 (map B args).
(** README.md:49-50: the command that makes data/exact.regex; the text is that file. *)
Example C65_exact : exm_main (fun _ => None)
  ["regex"; "--output"; "data/exact.regex"; "--pattern"; "any-char"; "--pattern"; "lowercase-word"; "--pattern"; "uppercase-word"; "--pattern"; "capitalized-word"; "--pattern"; "english-contraction";
   "--pattern"; "chinese-word"; "--pattern"; "indent"; "--pattern"; "space-operator-space"; "--pattern"; "space-punct-space"]
  (Runs (Ok (B "data/exact.regex", B "^(?:.)$|^(?:[a-z]+)$|^(?:[A-Z]+)$|^(?:[A-Z][a-z]+)$|^(?:'(?:re|ve|s|d|ll|t|m))$|^(?:[\u3400-\u4DBF\u4E00-\u9FFF]+)$|^(?:(?:[ ]+)|[\t]+)$|^(?: ?(?:(?:\+)|(?:\-)|(?:\*)|(?:/)|(?:%)|(?:\&)|(?:\|)|(?:\^)|(?:!)|(?:\~)|(?:\&\&)|(?:\|\|)|(?:==)|(?:!=)|(?:!==)|(?:<)|(?:>)|(?:<=)|(?:>=)|(?:<<)|(?:>>)|(?:>>>)|(?:\+\+)|(?:\-\-)|(?:\+=)|(?:\-=)|(?:\*=)|(?:/=)|(?:%=)|(?:\&=)|(?:\|=)|(?:\^=)|(?:=>)|(?:\->)|(?:\.)|(?:\.\.\.)|(?:\?)|(?:=)|(?::=)|(?:\[\])|(?:\(\))) ?)$|^(?: ?[[:punct:]] ?)$"))).
Proof. vm_compute. reflexivity. Qed.
(** README.md:224-240: a line for filter, and what it is read as. *)
Example C65_readme_filter :
  parse_args (fun s => if bytes_eqb s (B "-13.0") then Some (f64_of_Z (-13)) else None) (map B ["filter"; "--input"; "a.json"; "--output"; "b.json"; "--vocab-size"; "300"; "--min-score"; "-13.0"]) =
  PCommand (Filter (FilterFlags (B "a.json") (B "b.json") (Some 300) (Some (f64_of_Z (-13))) None)).
Proof. reflexivity. Qed.
(** Filtering a file from the command line: a short and a long name, and the values in another order. *)
Example C65_filters : exists m', exm_main (fun _ => Some exc_file) ["filter"; "--force"; "true"; "-o"; "out"; "-i"; "in"; "--min-score"; "inf"; "-v"; "+003"]
    (Runs (Ok (B "out", save_contents ex_fmt (tok_new m' [Crlf] ex_sps)))) /\ map st_value (m_vocab m') <> map st_value ex_vocab2.
Proof.
  destruct C49_example as (_ & m' & E & H). exists m'. split; [|exact H]. unfold exm_main, main.
  match goal with |- match ?x with _ => _ end _ => assert (P : x = PCommand (Filter (FilterFlags (B "in") (B "out") (Some 3) (Some finf) (Some true)))) by reflexivity end.
  rewrite P. cbn [run ff_input ff_output ff_vocab_size ff_min_score ff_force unwrap_or]. now rewrite <- E.
Qed.
Lemma exm_parsed fs args c o : parse_args exm_f64 (map B args) = PCommand c ->
  run exm_f64 fs (fun _ => true) exc_norm ex_fmt ex_num exm_new (fun _ => None) (fun x => x) exg_ln 8 insertion_sort insertion_sort 7 c o -> exm_main fs args o.
Proof. intros E H. unfold exm_main, main. now rewrite E. Qed.
(** Generating: no sources, so only the bytes. *)
Example C65_generates : exists contents, exm_main (fun _ => None)
  ["generate"; "-v"; "300"; "--processor"; "nfc"; "-o"; "out"; "--special"; "<s>"; "--insert-probability"; "1"; "--max-token-length"; "2"] (Runs (Ok (B "out", contents))).
Proof.
  set (g := gen_new 2 f1 None None [] []).
  assert (E : match generate_from exg_ln insertion_sort insertion_sort g [] 300 with Ok v => length v | _ => 0 end = 255) by (vm_compute; reflexivity).
  destruct (generate_from exg_ln insertion_sort insertion_sort g [] 300) as [vocab| | |] eqn:EV; [|discriminate E|discriminate E|discriminate E]. clear E.
  exists (save_contents ex_fmt (tok_new (model_from vocab) [Unicode Nfc] [B "<s>"])).
  eapply exm_parsed; [reflexivity|]. eexists. split; [reflexivity|].
  eapply then_ok with (a := ([Unicode Nfc], [], None, None, [], [])); [reflexivity|]. apply then_ok with (a := g); [apply feeds_done|].
  apply then_ok with (a := vocab); [|reflexivity]. exists []. split; [constructor|]. symmetry. exact EV.
Qed.
(** Merging "a" and "b", as in [C27_example]. *)
Definition exm_file (vocab : list scored_token) : bytes := save_contents ex_fmt (tok_new (model_from vocab) [] []).
Lemma exm_loads vocab : Forall (fun tk => f_is_finite (st_score tk) = true) vocab -> from_file ex_num (Some (exm_file vocab)) = Ok (tok_new (model_from vocab) [] []).
Proof. intros H. apply (@C19_exact_round_trip ex_fmt ex_num vocab [] [] ex_codec); [constructor|exact H|constructor]. Qed.
Example C65_merges : exm_main (fun path => if bytes_eqb path (B "in") then Some (exm_file ex_abs) else Some (B "ab"))
  ["merge"; "-i"; "in"; "--train"; "x:data"; "-o"; "out"; "--allow"; "re"; "--num-merges"; "1"; "--step"; "2"; "--scale-factor"; "1"; "--max-token-length"; "9"]
  (Runs (Ok (B "out", exm_file (ex_abs ++ [ex_new])))).
Proof.
  eapply exm_parsed; [reflexivity|]. eexists. split; [reflexivity|].
  cbn [mf_input mf_output mf_train mf_allow mf_num_merges mf_step mf_scale_factor mf_max_token_length unwrap_or].
  eapply then_ok with (a := (model_from ex_abs, [], [], [Source (B "x") ex_sample], (fun _ => true, map (fun b => [b])))).
  - unfold open_tokenizer. change (bytes_eqb (B "in") (B "in")) with true. cbv iota. rewrite exm_loads by (repeat constructor).
    cbn [unwrap bind]. unfold into_inner. rewrite tok_new_processors, tok_new_model, tok_new_specials.
    match goal with |- context [load_sources ?f ?p ?n ?t ?l] => assert (EL : load_sources f p n t l = Ok [Source (B "x") ex_sample]) by (vm_compute; reflexivity) end.
    rewrite EL. reflexivity.
  - apply then_ok with (a := model_from (ex_abs ++ [ex_new])); [|reflexivity]. exists ex_sample. split; [apply Permutation_refl|]. exact ex_merged.
Qed.
(** Pruning "a", "b", "ab" to two tokens, without any samples ([exp_pruned]). *)
Example C65_prunes : exists contents, exm_main (fun _ => Some (exm_file exp_vocab))
  ["prune"; "-i"; "in"; "-o"; "out"; "-v"; "2"; "--dropout"; "0"; "--shrink-factor"; "0.5"; "--em-subiters"; "0"] (Runs (Ok (B "out", contents))).
Proof.
  destruct (@exp_pruned (fun x => x) exg_ln 8 insertion_sort insertion_sort 7 insertion_sort_valid insertion_sort_valid) as [m' H]. exists (save_contents ex_fmt (tok_new m' [] [])).
  eapply exm_parsed; [reflexivity|]. eexists. split; [reflexivity|].
  cbn [pf_input pf_output pf_vocab_size pf_train pf_dropout pf_shrink_factor pf_em_subiters unwrap_or].
  eapply then_ok with (a := (model_from exp_vocab, [], [], [])).
  - unfold open_tokenizer. rewrite exm_loads by (repeat constructor). reflexivity.
  - apply then_ok with (a := m'); [|reflexivity]. exists []. split; [apply Permutation_refl|]. exact (@unwraps_it _ _ (Ok m') H).
Qed.
(** Mining "b", "a" from "ab\0b". *)
Example C65_mines : exm_main (fun _ => Some [x61; x62; x00; x62]) ["mine"; "--num-idioms"; "5"; "-o"; "out"; "--train"; "d:data"; "-p"; "x"]
  (Runs (Ok (B "out", write ex_fmt true 0 (JArr [jstr (B "b"); jstr (B "a")])))).
Proof.
  eapply exm_parsed; [reflexivity|]. eexists. split; [reflexivity|].
  eapply then_ok; [vm_compute; reflexivity|]. apply then_ok with (a := [([x62], 2); ([x61], 1)]); [|reflexivity].
  exists [[x61; x62]; [x62]], [([x62], 2); ([x61], 1)]. split; [apply Permutation_refl|]. split; [|reflexivity].
  exists (map (chunk_idioms (map (fun b => [b]))) (chunks (par_chunk_size 8 2 5) [[x61; x62]; [x62]])), [([x61], 1); ([x62], 1); ([x62], 1)], [([x61], 1); ([x62], 2)].
  split; [|split; [|split; [vm_compute; apply perm_swap || apply Permutation_refl|vm_compute; reflexivity]]].
  - vm_compute. repeat constructor.
  - match goal with |- Interleaving ?l ?s => let l' := eval vm_compute in l in change (Interleaving l' s); exact (Interleaving_concat l') end.
Qed.
(** Help, and lines that are refused: no command, no such command, no such option, no value, no number, a value too many, an option missing, a value without its option. *)
Example C65_refused :
  Forall (fun args => exm_main (fun _ => None) args Help) [["-h"]; ["--help"; "x"]; ["filter"; "-h"]; ["mine"; "-n"; "5"; "--help"]] /\
  Forall (fun args => exm_main (fun _ => None) args Usage)
    [[]; ["filters"]; ["--verbose"]; ["regex"; "--out"; "f"]; ["regex"; "-o"]; ["mine"; "-n"; "-5"; "-o"; "f"]; ["mine"; "-n"; "18446744073709551616"; "-o"; "f"]; ["regex"; "-o"; "f"; "-o"; "f"];
     ["mine"; "-n"; "5"]; ["regex"; "f"]; ["filter"; "-i"; "a"; "-o"; "b"; "--force"]; ["filter"; "-i"; "a"; "-o"; "b"; "--force"; "yes"]] /\
  Forall (fun args => exm_main (fun _ => None) args (Runs Panic)) [["encode"; "-v"; "a"]; ["decode"; "--vocab"; "a"; "-i"; "--help"]; ["filter"; "-i"; "a"; "-o"; "b"]] .
Proof. splits; repeat (constructor; [vm_compute; reflexivity|]); constructor. Qed.
