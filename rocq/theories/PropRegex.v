(** Properties of the regular expressions: C50. *)
From Coq.Strings Require Import String.
From Verif Require Import Base BaseProofs Utf8 SpecUtf8 Utf8Proofs SpecJson Json Cli CliProofs SpecRegex Regex RegexProofs RegexCompose RegexJoin Patterns.
Set Implicit Arguments.
Local Open Scope list_scope.

(** ** The text of a file *)
Definition no_breaks (s : bytes) : Prop := ~ In x0a s /\ ~ In x0d s.
Lemma filter_id A (p : A -> bool) l : (forall x, In x l -> p x = true) -> filter p l = l.
Proof. induction l as [|a l IH]; intros H; [reflexivity|]. cbn [filter]. rewrite (H a) by (left; auto). f_equal. apply IH. intros x Hx. apply H. right; auto. Qed.
Lemma filter_breaks s : no_breaks s -> filter (fun b => negb (Byte.eqb b x0a || Byte.eqb b x0d)) s = s.
Proof.
  intros [H1 H2]. apply filter_id. intros x Hx. apply negb_true_iff, orb_false_iff. split; apply not_true_iff_false; intros E; apply Byte.byte_dec_bl in E; subst; auto.
Qed.
Lemma strip_id ws s : find_prefix ws s = None -> strip ws s = s.
Proof. intros H. unfold strip. destruct (List.length s); [reflexivity|]. cbn [strip_fuel]. rewrite H. reflexivity. Qed.
Lemma trim_id s : (s = [] \/ exists m, s = B "^" ++ m ++ B "$") -> trim s = s.
Proof.
  intros [->|(m & ->)]; [reflexivity|]. unfold trim.
  rewrite (@strip_id whitespace_chars) by reflexivity. rewrite strip_id. apply rev_involutive.
  rewrite !rev_app_distr. reflexivity.
Qed.
Lemma allow_text_ends ts : allow_text ts = [] \/ exists m, allow_text ts = B "^" ++ m ++ B "$".
Proof.
  unfold allow_text. induction ts as [|t ts IH]; [left; reflexivity|right]. destruct ts as [|t2 ts].
  - exists (grouped t). reflexivity.
  - cbn [map intercalate]. cbn [map] in IH. destruct IH as [IH|[m IH]].
    + destruct ts; discriminate IH.
    + cbn [intercalate] in IH. rewrite IH. exists (grouped t ++ B "$" ++ B "|" ++ B "^" ++ m). rewrite <- !app_assoc. reflexivity.
Qed.
Lemma no_breaks_app a b : no_breaks a -> no_breaks b -> no_breaks (a ++ b).
Proof. intros [H1 H2] [H3 H4]. split; rewrite in_app_iff; tauto. Qed.
Lemma allow_text_breaks ts : Forall no_breaks ts -> no_breaks (allow_text ts).
Proof.
  assert (forall b, b <> x0a -> b <> x0d -> no_breaks [b]) as H1. { intros b Hb1 Hb2. split; intros [E|[]]; auto. }
  assert (forall t, no_breaks t -> no_breaks (B "^" ++ grouped t ++ B "$")) as H2.
  { intros t Ht. unfold grouped. repeat apply no_breaks_app; auto; try (apply H1; discriminate).
    split; cbn; intuition discriminate. }
  unfold allow_text. induction 1 as [|t ts Ht Hts IH]; [split; intros []|]. destruct ts as [|t2 ts]; [now apply H2|].
  cbn [map]. change (no_breaks ((B "^" ++ grouped t ++ B "$") ++ B "|" ++ intercalate (B "|") (map (fun r => B "^" ++ grouped r ++ B "$") (t2 :: ts)))).
  apply no_breaks_app; auto. apply no_breaks_app; auto. apply H1; discriminate.
Qed.

Lemma Apart_nil A (l : list (list A)) : Forall (Apart []) l.
Proof. apply Forall_forall. intros n _ x []. Qed.

Section C50.
  (** The tables of Unicode and [find_iter], as in Regex.v. *)
  Variable same_letter : N -> list N.
  Variables (unicode_digit unicode_word : N -> bool).
  Variable unicode_class : list N -> option (N -> bool).
  Variables (alphabetic alphanumeric : N -> bool).
  Variable find : re -> bytes -> list bytes.
  Notation parse := (parse_regex same_letter unicode_digit unicode_word unicode_class alphabetic alphanumeric).
  Notation new := (regex_new same_letter unicode_digit unicode_word unicode_class alphabetic alphanumeric find).

  (** [Means ts rs]: the expressions [ts] have the meanings [rs], each with the names of its groups. *)
  Definition Means : list bytes -> list (re * list (list N)) -> Prop := Forall2 (fun t r => parse (chars t) = Some r).

  Lemma is_match_spec r s : regex_is_match r s = true <-> Somewhere (chars s) r.
  Proof. apply matches_somewhere_spec. Qed.

  (** The allow expression is an expression, if no name of a group is in two patterns; it accepts a string exactly if one of the
      patterns matches the whole of it, or there are no patterns. *)
  Theorem C50_allow : forall ts rs, Forall Utf8 ts -> Means ts rs -> Forall (fun t => Comments_end (chars t)) ts -> ForallOrdPairs Apart (map snd rs) ->
    exists r names, parse (chars (allow_text ts)) = Some (r, names) /\
      forall s, regex_is_match r s = true <-> ts = [] \/ exists p, In p rs /\ Whole (chars s) (fst p).
  Proof.
    intros ts rs HU HM HC HA. rewrite allow_join, chars_join by auto.
    rewrite (@joined_regex same_letter unicode_digit unicode_word unicode_class alphabetic alphanumeric true (map chars ts) rs).
    2: { clear - HM. induction HM; constructor; auto. }
    2: { clear - HC. induction HC; constructor; auto. now apply Comments_end_Safe. }
    pose proof (all_names_ok (map snd rs) []) as [_ HN]. specialize (HN (conj (Apart_nil _) HA)).
    destruct (all_names [] (map snd rs)) as [names|]; [|congruence]. do 2 eexists. split; [reflexivity|]. intros s. rewrite is_match_spec. unfold Somewhere.
    destruct rs as [|p rs].
    - inversion HM; subst. split; auto. intros _. exists 0, 0. apply M_empty. lia.
    - split.
      + intros (i & j & H). apply Match_alts in H; [|discriminate]. destruct H as [(r & H1 & H2)|(a & [] & _)]. apply Match_anchored in H2.
        apply in_map_iff in H1. destruct H1 as (q & <- & H1). right. exists q. tauto.
      + intros [->|(q & H1 & H2)]; [inversion HM|]. exists 0, (List.length (chars s)). apply Match_alts; [discriminate|]. left. exists (fst q). split.
        now apply in_map. apply Match_anchored. auto.
  Qed.
  (** If a name is in two patterns, it is not an expression: the command panics. *)
  Theorem C50_allow_names : forall ts rs, Forall Utf8 ts -> Means ts rs -> Forall (fun t => Comments_end (chars t)) ts ->
    (parse (chars (allow_text ts)) <> None <-> ForallOrdPairs Apart (map snd rs)).
  Proof.
    intros ts rs HU HM HC. rewrite allow_join, chars_join by auto.
    rewrite (@joined_regex same_letter unicode_digit unicode_word unicode_class alphabetic alphanumeric true (map chars ts) rs).
    2: { clear - HM. induction HM; constructor; auto. }
    2: { clear - HC. induction HC; constructor; auto. now apply Comments_end_Safe. }
    pose proof (all_names_ok (map snd rs) []) as HN. destruct (all_names [] (map snd rs)).
    - split; [|discriminate]. intros _. apply HN. discriminate.
    - split; [congruence|]. intros HA. exfalso. apply HN; [|reflexivity]. split; auto. apply Forall_forall. intros n _ x [].
  Qed.
  (** The expression of the mine command matches what the patterns match, where they match. *)
  Theorem C50_mine : forall ts rs, Forall Utf8 ts -> Means ts rs -> Forall (fun t => Comments_end (chars t)) ts -> ForallOrdPairs Apart (map snd rs) -> ts <> [] ->
    exists r names, parse (chars (mine_text ts)) = Some (r, names) /\
      forall w i j, Match w r i j <-> exists p, In p rs /\ Match w (fst p) i j.
  Proof.
    intros ts rs HU HM HC HA Hne. rewrite mine_join, chars_join by auto.
    rewrite (@joined_regex same_letter unicode_digit unicode_word unicode_class alphabetic alphanumeric false (map chars ts) rs).
    2: { clear - HM. induction HM; constructor; auto. }
    2: { clear - HC. induction HC; constructor; auto. now apply Comments_end_Safe. }
    pose proof (all_names_ok (map snd rs) []) as [_ HN]. specialize (HN (conj (Apart_nil _) HA)).
    destruct (all_names [] (map snd rs)) as [names|]; [|congruence]. do 2 eexists. split; [reflexivity|]. intros w i j.
    destruct rs as [|p rs]; [inversion HM; congruence|]. rewrite Match_alts by discriminate. split.
    - intros [(r & H1 & H2)|(a & [] & _)]. apply in_map_iff in H1. destruct H1 as (q & <- & H1). exists q. auto.
    - intros (q & H1 & H2). left. exists (fst q). split; auto. now apply in_map.
  Qed.

  (** ** The command *)
  (** The text of a pattern that is given by a name, or as an expression. *)
  Definition text_of (name : bytes) : bytes := match hm_get bytes_eqb name patterns with Some t => t | None => name end.
  Lemma load_patterns_texts names ts : load_patterns new names = Ok ts -> ts = map text_of names /\ exists rs, Means ts rs.
  Proof.
    unfold load_patterns. revert ts. induction names as [|n names IH]; intros ts H.
    - injection H as <-. split; auto. exists []. constructor.
    - cbn [map_res] in H. destruct (load_pattern new n) as [t| | |] eqn:E; try discriminate H. cbn [bind] in H.
      destruct (map_res (load_pattern new) names) as [ts'| | |] eqn:E2; try discriminate H. injection H as <-.
      destruct (IH _ eq_refl) as [-> [rs HM]]. unfold load_pattern in E. fold (text_of n) in E. unfold regex_new in E at 1.
      destruct (parse (chars (text_of n))) as [[r ns]|] eqn:Ep; [|discriminate E]. injection E as <-. split; auto. exists ((r, ns) :: rs). constructor; auto.
  Qed.
  Lemma load_patterns_ok names rs : Means (map text_of names) rs -> load_patterns new names = Ok (map text_of names).
  Proof.
    unfold load_patterns, Means. revert rs. induction names as [|n names IH]; intros rs H; [reflexivity|]. cbn [map] in H. inversion H as [|? [r ns] ? rs' H1 H2]; subst.
    cbn [map_res map]. unfold load_pattern at 1. fold (text_of n). unfold regex_new at 1. rewrite H1. cbn [bind]. rewrite (IH _ H2). reflexivity.
  Qed.

  (** What the command writes; loading the file gives an expression that accepts exactly the strings that one of the patterns
      matches as a whole (all strings, without patterns). *)
  Theorem C50_command : forall fs writable output names path contents,
    Forall (fun n => Utf8 (text_of n) /\ Comments_end (chars (text_of n)) /\ no_breaks (text_of n)) names ->
    regex_cmd writable new output names = Ok (path, contents) -> fs path = Some contents ->
    path = output /\ contents = allow_text (map text_of names) /\
    exists rs accepts found, Means (map text_of names) rs /\ load_regex fs new path = Ok (accepts, found) /\
      forall s, accepts s = true <-> names = [] \/ exists p, In p rs /\ Whole (chars s) (fst p).
  Proof.
    intros fs writable output names path contents HF H Hfs. unfold regex_cmd in H.
    destruct (load_patterns new names) as [ts| | |] eqn:E; try discriminate H. cbn [bind] in H.
    apply load_patterns_texts in E. destruct E as [-> [rs HM]]. set (ts := map text_of names) in *.
    assert (Forall Utf8 ts) as HU. { apply Forall_map. eapply Forall_impl; [|exact HF]. cbn. tauto. }
    assert (Forall (fun t => Comments_end (chars t)) ts) as HC. { apply Forall_map. eapply Forall_impl; [|exact HF]. cbn. tauto. }
    assert (Forall no_breaks ts) as HB. { apply Forall_map. eapply Forall_impl; [|exact HF]. cbn. tauto. }
    pose proof (C50_allow_names HU HM HC) as HN. pose proof (C50_allow HU HM HC) as HA.
    unfold regex_new in H at 1. destruct (parse (chars (allow_text ts))) as [[r ns]|] eqn:Ep; [|discriminate H]. cbn [some bind] in H.
    assert (ForallOrdPairs Apart (map snd rs)) as HP by (apply HN; discriminate). destruct (HA HP) as (r' & ns' & E1 & H1). injection E1 as <- <-.
    unfold write_file in H. destruct (writable output); [|discriminate H]. injection H as <- <-. split; auto. split; auto.
    exists rs, (regex_is_match r), (find r). split; auto. split.
    - unfold load_regex, regex_file, read_text. rewrite Hfs. cbn [some bind].
      assert (Utf8 (allow_text ts)) as HUa.
      { clear - HU. unfold allow_text. assert (forall s, forallb (fun b => (bN b <? 128)%N) s = true -> Utf8 s) as Ha.
        { induction s as [|b s IH]; [intros _; exists []; split; constructor|]. cbn [forallb]. rewrite andb_true_iff. intros [H1 H2].
          apply (@Utf8_app [b]); auto. exists [bN b]. split. { constructor; auto. unfold scalar. lia. }
          unfold encode_string, encode_char. cbn [map List.concat]. replace (bN b <? 128)%N with true. cbn [app]. rewrite byte_of_N_bN. reflexivity. }
        assert (forall t, Utf8 t -> Utf8 (B "^" ++ grouped t ++ B "$")) as Hi.
        { intros t Ht. unfold grouped. repeat apply Utf8_app; auto; apply Ha; reflexivity. }
        induction HU as [|t ts' Ht Hts IH]; [apply Ha; reflexivity|]. destruct ts' as [|t2 ts']; [now apply Hi|].
        change (Utf8 ((B "^" ++ grouped t ++ B "$") ++ B "|" ++ intercalate (B "|") (map (fun r => B "^" ++ grouped r ++ B "$") (t2 :: ts')))).
        repeat apply Utf8_app; auto; try (apply Ha; reflexivity). }
      apply utf8_ok_spec in HUa. rewrite HUa. cbn [bind]. rewrite filter_breaks by now apply allow_text_breaks.
      rewrite trim_id by apply allow_text_ends. unfold regex_new. rewrite Ep. reflexivity.
    - intros s. rewrite H1. split; (intros [H|H]; [left|right; auto]); [|subst; reflexivity]. destruct names; [reflexivity|discriminate H].
  Qed.
  (** The command succeeds, if the patterns are expressions, no name of a group is in two of them, and the file can be written. *)
  Theorem C50_command_succeeds : forall writable output names rs, writable output = true ->
    Forall (fun n => Utf8 (text_of n) /\ Comments_end (chars (text_of n))) names -> Means (map text_of names) rs -> ForallOrdPairs Apart (map snd rs) ->
    regex_cmd writable new output names = Ok (output, allow_text (map text_of names)).
  Proof.
    intros writable output names rs Hw HF HM HA. unfold regex_cmd. rewrite (load_patterns_ok _ HM). cbn [bind]. set (ts := map text_of names) in *.
    assert (Forall Utf8 ts) as HU. { apply Forall_map. eapply Forall_impl; [|exact HF]. cbn. tauto. }
    assert (Forall (fun t => Comments_end (chars t)) ts) as HC. { apply Forall_map. eapply Forall_impl; [|exact HF]. cbn. tauto. }
    destruct (C50_allow HU HM HC HA) as (r & ns & E & _). unfold regex_new. rewrite E. cbn [some bind]. unfold write_file. rewrite Hw. reflexivity.
  Qed.
End C50.

(** ** The patterns of src/regex.rs *)
(** A test for [Comments_end]: no '#', or no 'x' after an opening parenthesis and a question mark. *)
Definition no_hash (cs : list N) : bool := negb (existsb (N.eqb 0x23) cs).
Fixpoint no_x_flag (cs : list N) : bool :=
  match cs with
  | [] => true
  | c :: cs' =>
      match cs' with
      | d :: e :: _ => if N.eqb c 0x28 && N.eqb d 0x3F then N.eqb e 0x3A else true
      | d :: [] => true
      | [] => true
      end && no_x_flag cs'
  end.
Lemma no_hash_ends cs : no_hash cs = true -> Comments_end cs.
Proof.
  intros H. left. intros a b ->. apply negb_true_iff in H. rewrite existsb_app in H. apply orb_false_iff in H. destruct H as [_ H]. discriminate H.
Qed.
Lemma no_x_flag_ends cs : no_x_flag cs = true -> Comments_end cs.
Proof.
  intros H. right. intros (a & fl & b & E & H1 & H2). revert cs H E. induction a as [|c a IH]; intros cs H E.
  - cbn [app] in E. subst cs. destruct fl as [|c fl]; [destruct H1|]. cbn [no_x_flag app] in H. apply andb_true_iff in H. destruct H as [H _].
    cbn in H. inversion H2 as [|? ? H3 _]; subst. apply N.eqb_eq in H. subst c. cbn in H3. intuition discriminate.
  - destruct cs as [|c' cs]; [discriminate E|]. injection E as -> E. cbn [no_x_flag] in H. apply andb_true_iff in H. destruct H as [_ H]. eapply IH; eauto.
Qed.
Definition breakless (s : bytes) : bool := forallb (fun b => negb (Byte.eqb b x0a || Byte.eqb b x0d)) s.
Lemma breakless_ok s : breakless s = true -> no_breaks s.
Proof. unfold breakless. rewrite forallb_forall. intros H. split; intros H1; apply H in H1; discriminate H1. Qed.


Definition builtin : list bytes := map fst patterns.
Lemma builtin_checked : forallb (fun n => utf8_ok (text_of n) && (no_hash (chars (text_of n)) || no_x_flag (chars (text_of n))) && breakless (text_of n)) builtin = true.
Proof. vm_compute. reflexivity. Qed.

Section Builtin.
  Variable same_letter : N -> list N.
  Variables (unicode_digit unicode_word : N -> bool).
  Variable unicode_class : list N -> option (N -> bool).
  Variables (alphabetic alphanumeric : N -> bool).
  Variable find : re -> bytes -> list bytes.
  Notation parse := (parse_regex same_letter unicode_digit unicode_word unicode_class alphabetic alphanumeric).
  Notation new := (regex_new same_letter unicode_digit unicode_word unicode_class alphabetic alphanumeric find).
  Notation means := (Means same_letter unicode_digit unicode_word unicode_class alphabetic alphanumeric).

  Lemma builtin_parse : forallb (fun n => match parse (chars (text_of n)) with Some (_, []) => true | _ => false end) builtin = true.
  Proof. vm_compute. reflexivity. Qed.
  Lemma builtin_good n : In n builtin -> Utf8 (text_of n) /\ Comments_end (chars (text_of n)) /\ no_breaks (text_of n) /\ exists r, parse (chars (text_of n)) = Some (r, []).
  Proof.
    intros H. pose proof builtin_checked as H1. rewrite forallb_forall in H1. specialize (H1 _ H). apply andb_true_iff in H1. destruct H1 as [H1 H3].
    apply andb_true_iff in H1. destruct H1 as [H1 H2]. pose proof builtin_parse as H4. rewrite forallb_forall in H4. specialize (H4 _ H).
    split; [now apply utf8_ok_spec|]. split. { apply orb_true_iff in H2. destruct H2; [now apply no_hash_ends|now apply no_x_flag_ends]. }
    split; [now apply breakless_ok|]. destruct (parse (chars (text_of n))) as [[r [|]]|]; try discriminate H4. eauto.
  Qed.
  (** With the patterns of the program the command always succeeds, and what it writes accepts exactly their full matches. *)
  Theorem C50_builtin : forall fs writable output names, Forall (fun n => In n builtin) names -> writable output = true ->
    fs output = Some (allow_text (map text_of names)) ->
    regex_cmd writable new output names = Ok (output, allow_text (map text_of names)) /\
    exists rs accepts found, means (map text_of names) rs /\ load_regex fs new output = Ok (accepts, found) /\
      forall s, accepts s = true <-> names = [] \/ exists p, In p rs /\ Whole (chars s) (fst p).
  Proof.
    intros fs writable output names HF Hw Hfs.
    assert (exists rs, means (map text_of names) rs /\ ForallOrdPairs Apart (map snd rs) /\ Forall (fun p => snd p = []) rs) as (rs & HM & HA & _).
    { clear - HF. induction HF as [|n names Hn Hns (rs & HM & HA & HE)]. { exists []. repeat split; constructor. }
      destruct (builtin_good Hn) as (_ & _ & _ & r & E). exists ((r, []) :: rs). split; [constructor; auto|]. split; [|constructor; auto].
      cbn [map snd]. constructor; auto. apply Forall_forall. intros x _ y []. }
    assert (Forall (fun n => Utf8 (text_of n) /\ Comments_end (chars (text_of n)) /\ no_breaks (text_of n)) names) as HF1.
    { eapply Forall_impl; [|exact HF]. intros n Hn. destruct (builtin_good Hn) as (H1 & H2 & H3 & _). auto. }
    assert (regex_cmd writable new output names = Ok (output, allow_text (map text_of names))) as Hok.
    { eapply C50_command_succeeds; eauto. eapply Forall_impl; [|exact HF1]. cbn. tauto. }
    split; auto. edestruct C50_command as (_ & _ & H); eauto.
  Qed.

  (** src/regex.rs:178-411: the examples and the counterexamples of the patterns. *)
  Definition repo_examples : list (bytes * list bytes * list bytes) :=
    [(B "any-char", [B "好"; B "A"], [B "123"]);
     (B "lowercase-word", [B "hello"], [B "Hello"; B "HELLO"]);
     (B "space-lowercase-word", [B " hello"; B " world"], [B "Hello"; B " WORLD"]);
     (B "uppercase-word", [B "HELLO"], [B "Hello"; B " WORLD"]);
     (B "space-uppercase-word", [B " HELLO"; B "WORLD"], [B "Hello"; B " world"]);
     (B "capitalized-word", [B "Hello"], [B "HeLlO"]);
     (B "space-capitalized-word", [B " Hello"; B "Hello"], [B "HeLlO"]);
     (B "word", [B "hello"; B "Hello"; B "HELLO"], [B "123"]);
     (B "space-word", [B " hello"; B " Hello"; B " HeLlO"], [B "123"]);
     (B "space-english-word", [B "don't"; B " You'll"; B " He's"], [B "ABC'DEF"]);
     (B "space-french-word", [B "Été"; B " compliqué"], [B "مرحبا"]);
     (B "chinese-word", [B "你好"; B "大家好"], [B "مرحبا"]);
     (B "english-contraction", [B "'re"; B "'ve"; B "'s"; B "'d"; B "'ll"; B "'t"; B "'m"], []);
     (B "space-digit", [B " 1"; B " 2"; B " 3"], [B " 10"]);
     (B "short-number", [B "1"; B "123"; B "789"], [B "1000"]);
     (B "space-short-number", [B " 1"; B " 123"; B " 789"], []);
     (B "short-decimal-number", [B "1.1"; B "123.4"; B "789.9"], [B "123.456"; B "1000.0"]);
     (B "space-short-decimal-number", [B " 1.1"; B " 123.4"; B " 789.9"], [B " 123.456"; B " 1000.0"]);
     (B "word-wrapped-in-brackets", [B "[abc]"; B "[VALUE]"], []);
     (B "short-number-wrapped-in-brackets", [B "[1]"; B "[123]"; B "[789]"], []);
     (B "word-wrapped-in-quotes", [B "'abc'"; B """VALUE"""], []);
     (B "word-wrapped-in-angle-brackets", [B "<abc>"; B "<VALUE>"], []);
     (B "punct-word", [B "&abc"; B ":Abc"; B "+ABC"], []);
     (B "space-punct-word", [B " &abc"; B " :Abc"; B " +ABC"], []);
     (B "word-punct", [B "a&"; B "B:"; B "C+"], []);
     (B "dot-short-number", [B ".1"; B ".123"; B ".789"], [B ".1000"]);
     (B "indent", [B " "; B "  "; B "    "; [x09]; [x09] ++ [x09]; [x09] ++ [x09] ++ [x09]], [[x09] ++ B " "]);
     (B "newline-indent", [[x0a] ++ B " "; [x0a] ++ B "  "; [x0a] ++ B "    "; [x0a] ++ [x09] ++ [x09]; [x0a] ++ [x09] ++ [x09]; [x0a] ++ [x09] ++ [x09] ++ [x09]], [[x0a] ++ [x09] ++ B " "]);
     (B "whitespace", [B " "; B "  "; B "    "; [x0a]; [x0a] ++ [x0a]; [x09] ++ [x09]; B " " ++ [x0a] ++ [x09]], []);
     (B "space-punct-space", [B " # "; B " ( "; B " ) "; B " { "; B " } "; B " != "; B ", "], []);
     (B "repeated-punct", [B "####"; B "()[]{}"], [[x0a] ++ B "#" ++ [x0a] ++ B "#" ++ [x0a] ++ B "#"]);
     (B "few-repeated-punct", [B "#"; B "##"; B "###"; B "()"; B "[]"; B "{}"], [B "#####"; B "()[]{}"]);
     (B "repeated-punct-space", [B " # "; B " ( "; B " ) "; B " { "; B " } "; B " != "; B ", "], []);
     (B "few-repeated-punct-space", [B " # "; B " ( "; B " ) "; B " { "; B " } "; B " != "; B ", "], []);
     (B "punct-newline", [B ";" ++ [x0a]; B "]" ++ [x0a]; B "}" ++ [x0a]], [B ";" ++ [x0a] ++ [x0a]; B "]" ++ [x0a] ++ [x0a]; B "}" ++ [x0a] ++ [x0a]]);
     (B "repeated-punct-newline-indent", [B ");" ++ [x0a] ++ [x09] ++ [x09]; B "]" ++ [x0a] ++ B "    "], []);
     (B "space-operator-space", [B " + "; B " !=="], [])].
  Definition accepts (p s : bytes) : bool := match new (allow_text [p]) with Some (a, _) => a s | None => false end.
  (** src/regex.rs:449-480 [test_regexes]: the assertions on them hold, but one. *)
  Theorem C50_repo_examples : forall name good bad, In (name, good, bad) repo_examples -> In name builtin /\
    (forall s, In s good -> (name, s) <> (B "space-punct-space", B " != ") -> accepts (text_of name) s = true) /\
    (forall s, In s bad -> accepts (text_of name) s = false).
  Proof.
    assert (forallb (fun e => let '(name, good, bad) := e in existsb (bytes_eqb name) builtin
      && forallb (fun s => accepts (text_of name) s || (bytes_eqb name (B "space-punct-space") && bytes_eqb s (B " != "))) good
      && forallb (fun s => negb (accepts (text_of name) s)) bad) repo_examples = true) as H by (vm_compute; reflexivity).
    rewrite forallb_forall in H. intros name good bad Hin. specialize (H _ Hin). cbn beta iota in H.
    apply andb_true_iff in H. destruct H as [H H3]. apply andb_true_iff in H. destruct H as [H1 H2]. split.
    { apply existsb_exists in H1. destruct H1 as (x & H1 & E). apply bytes_eqb_eq in E. now subst. }
    rewrite forallb_forall in H2, H3. split.
    - intros s Hs Hne. specialize (H2 _ Hs). apply orb_true_iff in H2. destruct H2 as [H2|H2]; auto. apply andb_true_iff in H2. destruct H2 as [E1 E2].
      apply bytes_eqb_eq in E1. apply bytes_eqb_eq in E2. subst. congruence.
    - intros s Hs. specialize (H3 _ Hs). now apply negb_true_iff in H3.
  Qed.
  (** The one that does not: the pattern "space-punct-space" does not match its example " != ". *)
  Theorem C50_repo_example_refuted : exists good, In (B "space-punct-space", good, []) repo_examples /\ In (B " != ") good
    /\ accepts (text_of (B "space-punct-space")) (B " != ") = false.
  Proof.
    exists [B " # "; B " ( "; B " ) "; B " { "; B " } "; B " != "; B ", "]. split; [|split; [|vm_compute; reflexivity]].
    - unfold repo_examples. do 29 right. left. reflexivity.
    - do 5 right. left. reflexivity.
  Qed.

  (** *** Without the conditions *)
  (** A comment that does not end takes the rest with it, the closing parenthesis first: the command panics. *)
  Theorem C50_comment_panics_refuted : forall writable output, exists r, parse (chars (B "(?x)a#")) = Some r /\
    regex_cmd writable new output [B "(?x)a#"] = Panic.
  Proof. intros writable output. eexists. split; vm_compute; reflexivity. Qed.
  (** Or, with a line end in another pattern, it accepts less: the line end is a pattern, but is not accepted. *)
  Theorem C50_comment_refuted : exists r1 r2 r, means [B "(?x)a#"; [x0a]] [(r1, []); (r2, [])] /\ parse (chars (allow_text [B "(?x)a#"; [x0a]])) = Some (r, [])
    /\ Whole (chars [x0a]) r2 /\ regex_is_match r [x0a] = false.
  Proof.
    do 3 eexists. split. { constructor; [vm_compute; reflexivity|]. constructor; [vm_compute; reflexivity|constructor]. }
    split; [vm_compute; reflexivity|]. split; [|vm_compute; reflexivity]. unfold Whole. eapply M_one; reflexivity.
  Qed.
  (** A line break in a pattern is lost in the file. *)
  Theorem C50_break_refuted : forall fs, let p := B "a" ++ [x0a] ++ B "b" in fs (B "f") = Some (allow_text [p]) ->
    regex_cmd (fun _ => true) new (B "f") [p] = Ok (B "f", allow_text [p]) /\
    exists a found, load_regex fs new (B "f") = Ok (a, found) /\ accepts p p = true /\ a p = false /\ accepts p (B "ab") = false /\ a (B "ab") = true.
  Proof.
    intros fs p Hfs. split; [vm_compute; reflexivity|]. unfold load_regex, regex_file, read_text. rewrite Hfs.
    assert (utf8_ok (allow_text [p]) = true) as E1 by (vm_compute; reflexivity). cbn [some bind]. rewrite E1. cbn [bind].
    assert (trim (filter (fun b => negb (Byte.eqb b x0a || Byte.eqb b x0d)) (allow_text [p])) = allow_text [B "ab"]) as -> by (vm_compute; reflexivity).
    assert (match new (allow_text [B "ab"]) with Some (a, _) => (a p, a (B "ab")) | None => (true, true) end = (false, true)) as E2 by (vm_compute; reflexivity).
    destruct (new (allow_text [B "ab"])) as [[a found]|]; [|discriminate E2]. injection E2 as E2 E3. exists a, found. split; [reflexivity|].
    split; [vm_compute; reflexivity|]. split; [exact E2|]. split; [vm_compute; reflexivity|exact E3].
  Qed.
  (** A name in two patterns: the command panics, although each is an expression. *)
  Theorem C50_name_panics : forall writable output,
    (exists r, parse (chars (B "(?P<_>a)")) = Some r) /\ (exists r, parse (chars (B "(?P<_>b)")) = Some r) /\
    regex_cmd writable new output [B "(?P<_>a)"; B "(?P<_>b)"] = Panic.
  Proof.
    intros writable output.
    assert (exists r1 r2, means [B "(?P<_>a)"; B "(?P<_>b)"] [(r1, [[bN "_"]]); (r2, [[bN "_"]])]) as (r1 & r2 & HM).
    { do 2 eexists. constructor; [|constructor; [|constructor]].
      - vm_compute. reflexivity.
      - vm_compute. reflexivity. }
    inversion HM as [|? ? ? ? E1 HM1]; subst. inversion HM1 as [|? ? ? ? E2 _]; subst. split; [eauto|]. split; [eauto|].
    assert (Forall Utf8 [B "(?P<_>a)"; B "(?P<_>b)"]) as HU by (apply Forall_cons; [|apply Forall_cons; [|apply Forall_nil]]; apply utf8_ok_spec; reflexivity).
    assert (Forall (fun t => Comments_end (chars t)) [B "(?P<_>a)"; B "(?P<_>b)"]) as HC by (apply Forall_cons; [|apply Forall_cons; [|apply Forall_nil]]; apply no_hash_ends; reflexivity).
    pose proof (C50_allow_names HU HM HC) as HN. unfold regex_cmd.
    assert (load_patterns new [B "(?P<_>a)"; B "(?P<_>b)"] = Ok [B "(?P<_>a)"; B "(?P<_>b)"]) as -> by (apply (load_patterns_ok find [B "(?P<_>a)"; B "(?P<_>b)"] HM)).
    cbn [bind]. unfold regex_new at 1. destruct (parse (chars (allow_text [B "(?P<_>a)"; B "(?P<_>b)"]))); [|reflexivity].
    exfalso. assert (ForallOrdPairs Apart (map snd [(r1, [[bN "_"]]); (r2, [[bN "_"]])])) as HP by (apply HN; discriminate).
    inversion HP as [|? ? H _]; subst. inversion H as [|? ? H1 _]; subst. apply (H1 [bN "_"]); left; reflexivity.
  Qed.
End Builtin.
Print Assumptions C50_allow.
Print Assumptions C50_allow_names.
Print Assumptions C50_mine.
Print Assumptions C50_command.
Print Assumptions C50_command_succeeds.
Print Assumptions C50_builtin.
Print Assumptions C50_repo_examples.
Print Assumptions C50_repo_example_refuted.
Print Assumptions C50_comment_panics_refuted.
Print Assumptions C50_comment_refuted.
Print Assumptions C50_break_refuted.
Print Assumptions C50_name_panics.

(** Two patterns of the program, and one that is not; what is accepted. *)
Example C50_example :
  let new := regex_new (fun _ => []) (fun _ => false) (fun _ => false) (fun _ => None) (fun _ => false) (fun _ => false) (fun _ _ => []) in
  exists text accepts found, regex_cmd (fun _ => true) new (B "allow") [B "space-digit"; B "capitalized-word"; B "x{2,}|(?x: # y" ++ [x0a] ++ B ")"] = Ok (B "allow", text)
    /\ new text = Some (accepts, found)
    /\ map accepts [B " 1"; B "Word"; B "xxx"; B ""; B "x"; B " 12"; B "xxWord"] = [true; true; true; true; false; false; false].
Proof.
  intros new. set (names := [B "space-digit"; B "capitalized-word"; B "x{2,}|(?x: # y" ++ [x0a] ++ B ")"]).
  assert (match new (allow_text (map text_of names)) with Some (a, _) => map a [B " 1"; B "Word"; B "xxx"; B ""; B "x"; B " 12"; B "xxWord"] | None => [] end
    = [true; true; true; true; false; false; false]) as E by (vm_compute; reflexivity).
  destruct (new (allow_text (map text_of names))) as [[a found]|] eqn:En; [|discriminate E].
  exists (allow_text (map text_of names)), a, found. split; [vm_compute; reflexivity|]. split; [exact En|exact E].
Qed.
