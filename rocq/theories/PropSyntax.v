(** What the texts of expressions mean: C66. *)
From Coq.Strings Require Import String.
From Verif Require Import Base BaseProofs Utf8 SpecUtf8 SpecJson SpecRegex Regex SpecFind RegexProofs RegexCompose Find FindProofs PropRegex PropFind SpecSyntax SyntaxProofs.
Set Implicit Arguments.
Local Open Scope list_scope.
Notation length := List.length (only parsing).
Local Ltac splits := repeat match goal with |- _ /\ _ => split end.

Section Syntax.
  Variable same_letter : N -> list N.
  Variables (unicode_digit unicode_word : N -> bool).
  Variable unicode_class : list N -> option (N -> bool).
  Variables (alphabetic alphanumeric : N -> bool).
  Notation new := (regex_new same_letter unicode_digit unicode_word unicode_class alphabetic alphanumeric find_iter).
  Notation Means := (Alts same_letter unicode_digit unicode_word unicode_class alphabetic alphanumeric).
  Notation Row := (Branch same_letter unicode_digit unicode_word unicode_class alphabetic alphanumeric).

  (** A text that the documentation describes is accepted, matches and finds what the documentation says. *)
  Theorem C66_syntax : forall text r m ns, Means plain (chars text) r m ns -> NoDup ns ->
    exists accepts found, new text = Some (accepts, found) /\
      (forall s, accepts s = true <-> Somewhere (chars s) r) /\
      (forall s, exists l, Finds (chars s) r false 0 l /\ Forall2 (Stretch (chars s)) l (found s)).
  Proof.
    intros text r m ns H Hn. destruct (parse_syntax H Hn) as (r' & E & HS). unfold regex_new. rewrite E. do 2 eexists. splits; [reflexivity| |].
    - intros s. unfold regex_is_match. rewrite matches_somewhere_spec. unfold Somewhere. split; intros (i & j & G); exists i, j; apply (Same_Match _ _ _ HS); auto.
    - intros s. destruct (C59_find r' s) as (l & _ & H2). exists (find_all (chars s) r'). split.
      + rewrite (Same_find_all (chars s) HS). apply find_all_finds.
      + clear H2 l. destruct (C59_find r' s) as (l & H1 & H2). now rewrite (proj1 (H1 _) (find_all_finds (chars s) r')).
  Qed.
  (** It is refused if two of its groups have the same name. *)
  Theorem C66_names : forall text r m ns, Means plain (chars text) r m ns -> (new text = None <-> ~ NoDup ns).
  Proof.
    intros text r m ns H. split.
    - intros E Hn. destruct (C66_syntax _ H Hn) as (a & f & E' & _). congruence.
    - intros Hn. unfold regex_new. now rewrite (parse_dup H Hn).
  Qed.
  (** So is what closes no group, leaves one open, or repeats nothing. *)
  Theorem C66_unbalanced : forall text t rest t1 m1 t2 q min max r m ns r1 ns1 r2 m2 ns2,
    Means plain t r m ns -> Row plain t1 r1 m1 ns1 -> Means m1 t2 r2 m2 ns2 -> Count q min max ->
    In (chars text) [t ++ T ")" ++ rest; t1 ++ T "(" ++ t2; q ++ rest; t ++ T "|" ++ q ++ rest] -> new text = None.
  Proof.
    intros text t rest t1 m1 t2 q min max r m ns r1 ns1 r2 m2 ns2 H H1 H2 Hq Hi. unfold regex_new.
    assert (parse_regex same_letter unicode_digit unicode_word unicode_class alphabetic alphanumeric (chars text) = None) as ->; [|reflexivity].
    destruct Hi as [<-|[<-|[<-|[<-|[]]]]].
    - eapply parse_closed; eauto.
    - eapply parse_open; eauto.
    - eapply (proj1 (parse_nothing _ Hq H)).
    - eapply (proj2 (parse_nothing _ Hq H)).
  Qed.
  (** So is a backslash before what it cannot escape: a letter or digit without a meaning, a character beyond ASCII; and a code in
      hexadecimal that has too few digits, something else than a digit, or is not the code of a character. *)
  Theorem C66_escapes : forall text t1 r1 m1 ns1 c l k ds n rest, Row plain t1 r1 m1 ns1 ->
    In (l, k) [(C "x", 2); (C "u", 4); (C "U", 8)] -> Numeral 16 ds n ->
    (exists t, chars text = t1 ++ T "\" ++ t /\
      (t = [] \/
       t = c :: rest /\ ((128 <= c)%N \/ Alnum c /\ ~ In c (T "xuUpPdDsSwWatnvfrAzbB")) \/
       t = [l] ++ ds ++ c :: rest /\ List.length ds < k /\ (forall x, ~ Digit c x) /\ (ds = [] -> c <> C "{") \/
       (t = [l] ++ ds /\ List.length ds < k \/ t = [l] ++ T "{" ++ ds) \/
       t = [l] ++ T "{" ++ ds ++ c :: rest /\ (forall x, ~ Digit c x) /\ (c = C "}" -> ds = []) \/
       (t = [l] ++ ds ++ rest /\ List.length ds = k \/ t = [l] ++ T "{" ++ ds ++ T "}" ++ rest) /\ ds <> [] /\ ~ Scalar n)) ->
    new text = None.
  Proof.
    intros text t1 r1 m1 ns1 c l k ds n rest H1 Hl Hd (t & E & H). unfold regex_new. rewrite E.
    assert (parse_escape same_letter unicode_digit unicode_word unicode_class (fl m1) t = None) as HN.
    { assert (forall s, parse_hex false k s = None -> parse_escape same_letter unicode_digit unicode_word unicode_class (fl m1) (l :: s) = None) as HX
        by (intros s HX; destruct Hl as [[= <- <-]|[[= <- <-]|[[= <- <-]|[]]]]; exact HX).
      destruct H as [->|[[-> H]|[(-> & H2 & H3 & H4)|[[[-> H2]| ->]|[(-> & H3 & H4)|([[-> H2]| ->] & H3 & H4)]]]]].
      - reflexivity.
      - now apply escape_unknown.
      - apply HX. eapply hex_none; eauto.
      - apply HX. eapply hex_short; eauto.
      - apply HX. eapply hex_brace_open; eauto.
      - apply HX. eapply hex_brace_none; eauto.
      - apply HX. rewrite <- H2. eapply hex_large; eauto.
      - apply HX. eapply hex_brace_large; eauto. }
    assert (parse_regex same_letter unicode_digit unicode_word unicode_class alphabetic alphanumeric (t1 ++ T "\" ++ t) = None) as ->; [|reflexivity].
    eapply parse_escape_none; [exact H1|exact HN].
  Qed.
End Syntax.
Print Assumptions C66_syntax.
Print Assumptions C66_names.
Print Assumptions C66_unbalanced.
Print Assumptions C66_escapes.

(** ** An example of the syntax *)
(** Tables for ASCII. *)
Definition exs_same (c : N) : list N :=
  if between 0x41 0x5A c then [c + 0x20]%N else if between 0x61 0x7A c then [c - 0x20]%N else [].
Definition exs_digit (c : N) : bool := between 0x30 0x39 c.
Definition exs_letter (c : N) : bool := between 0x41 0x5A c || between 0x61 0x7A c.
Definition exs_word (c : N) : bool := exs_letter c || exs_digit c || is "_" c.
Definition exs_class (name : list N) : option (N -> bool) := if chars_eqb name (T "L") then Some exs_letter else if chars_eqb name (T "Lu") then Some (between 0x41 0x5A) else None.
Notation exs_new := (regex_new exs_same exs_digit exs_word exs_class exs_letter (fun c => exs_letter c || exs_digit c) find_iter).
Notation exs_means := (Alts exs_same exs_digit exs_word exs_class exs_letter (fun c => exs_letter c || exs_digit c)).
Definition exs_text : bytes := B "(?i)a+[^b-d\s]|\bx{2,3}?(?P<n>.)$".

(** [(?i)a+[^b-d\s]|\bx{2,3}?(?P<n>.)$] has a meaning. *)
Example C66_syntax_example : exists r m, exs_means plain (chars exs_text) r m [T "n"].
Proof.
  set (i := Mode true false false false false).
  assert (Switch (T "i") plain i) as Hi. { apply (@S_switch (T "i") [] plain). repeat constructor. intros []. intros c [<-|[]]. vm_compute. tauto. }
  eexists. exists i. change (chars exs_text) with ((T "(?" ++ T "i" ++ T ")" ++ (T "a" ++ T "+") ++ (T "[^" ++ ((T "b" ++ T "-" ++ T "d") ++ (T "\" ++ T "s")) ++ T "]") ++ []) ++ T "|" ++
    ((T "\" ++ T "b") ++ (T "x" ++ ((T "{" ++ T "2" ++ T "," ++ T "3" ++ T "}") ++ T "?")) ++ (T "(?P<" ++ T "n" ++ T ">" ++ (T "." ++ []) ++ T ")") ++ T "$" ++ [])).
  assert (forall c, ~ In c (T "[]\-&~^") -> Class_char [c] c) as HC by (intros; now constructor).
  eapply (@Z_more _ _ _ _ _ _ plain _ _ i [] _ _ i [T "n"]).
  - eapply R_flags; [exact Hi|discriminate|]. eapply (@R_piece _ _ _ _ _ _ i true _ _ [] _ _ i []).
    + eapply P_repeat with (open := false); [|apply Q_greedy, Q_plus|discriminate]. apply P_atom.
      eapply (@A_itself _ _ _ _ _ _ i (C "a")). vm_compute. intuition discriminate. exact (fold_is exs_same i (eq_is (C "a"))).
    + eapply (@R_piece _ _ _ _ _ _ i false _ _ [] _ _ i []); [|constructor]. eapply P_atom. eapply A_class.
      * eapply (@C_no _ _ _ _ i false). apply B_items. eapply I_more; [apply I_range|apply I_one, I_kind, K_space].
        apply (HC (C "b")). vm_compute. intuition discriminate. apply (HC (C "d")). vm_compute. intuition discriminate. vm_compute. discriminate.
      * apply not_is. exact (@fold_is exs_same i _ _ (or_is (range_is (C "b") (C "d")) space_is)).
  - eapply Z_one. eapply (@R_piece _ _ _ _ _ _ i false _ _ [] _ _ i [T "n"]).
    + eapply P_atom. eapply A_place; [apply L_boundary|]. instantiate (1 := word_boundary exs_word).
      assert (Is exs_word (fun c => exs_word c = true)) as HW by (intros c; tauto). intros w k. unfold word_boundary.
      pose proof (before_is w k HW) as H1. pose proof (after_is w k HW) as H2. rewrite <- H1, <- H2.
      destruct (before exs_word w k), (after exs_word w k); cbn; intuition congruence.
    + eapply (@R_piece _ _ _ _ _ _ i false _ _ [] _ _ i [T "n"]).
      * eapply P_repeat with (open := false).
        -- eapply P_atom. eapply (@A_itself _ _ _ _ _ _ i (C "x")). vm_compute. intuition discriminate. exact (fold_is exs_same i (eq_is (C "x"))).
        -- apply Q_lazy. apply (@Q_between (T "2") 2 (T "3") 3); try discriminate.
           apply (@N_digit 10 [] 0 (C "2") 2); [constructor|left|]; vm_compute; auto.
           apply (@N_digit 10 [] 0 (C "3") 3); [constructor|left|]; vm_compute; auto.
           split; vm_compute; congruence.
        -- discriminate.
      * eapply (@R_piece _ _ _ _ _ _ i false _ _ [T "n"] _ _ i []).
        -- eapply P_atom. eapply (@A_named _ _ _ _ _ _ i (T "(?P<") (T "n") _ _ i []). vm_compute; auto.
           split; [|repeat constructor; vm_compute; intuition discriminate]. cbn. auto.
           eapply Z_one. eapply (@R_piece _ _ _ _ _ _ i false _ _ [] _ _ i []); [|constructor]. eapply P_atom. apply A_any. exact (any_is i).
        -- eapply (@R_piece _ _ _ _ _ _ i false _ _ [] _ _ i []); [|constructor]. eapply P_atom. apply A_end. instantiate (1 := text_end).
           intros w k. unfold Ends. cbn [multi_line i]. unfold text_end. rewrite Nat.eqb_eq. intuition congruence.
Qed.

(** What some expressions say about some texts: whether they match, and what they find. *)
Definition says (text s : bytes) : option (bool * list bytes) := match exs_new text with Some (a, f) => Some (a s, f s) | None => None end.
Example C66_example_means :
  says exs_text (B "bAaE xxyx") = Some (true, [B "AaE"]) /\ says exs_text (B "a xxy") = Some (true, [B "xxy"]) /\
  says (B "(?m)^b$") (B "a" ++ [x0a] ++ B "b") = Some (true, [B "b"]) /\ says (B "^b$") (B "a" ++ [x0a] ++ B "b") = Some (false, []) /\
  says (B "(?m)^a$") (B "a" ++ [x0d; x0a] ++ B "b") = Some (false, []) /\ says (B "(?mR)^a$") (B "a" ++ [x0d; x0a] ++ B "b") = Some (true, [B "a"]) /\
  says (B "(?s).") [x0a] = Some (true, [[x0a]]) /\ says (B ".") [x0a] = Some (false, []) /\ says (B "(?R).") [x0d] = Some (false, []) /\
  says (B "(?i)B(?-i)c") (B "bC bc") = Some (true, [B "bc"]) /\ says (B "(?i:b)C") (B "BC bc") = Some (true, [B "BC"]) /\
  says (B "(?U)a+") (B "aa") = Some (true, [B "a"; B "a"]) /\ says (B "(?U)a+?") (B "aa") = Some (true, [B "aa"]) /\
  says (B "[[:alpha:]&&[^a-c]]+") (B "abcdef1") = Some (true, [B "def"]) /\ says (B "[a-f--c]+") (B "abcdef") = Some (true, [B "ab"; B "def"]) /\
  says (B "[a-c~~b-d]") (B "abcd") = Some (true, [B "a"; B "d"]) /\ says (B "[]a-]+") (B "a]-b") = Some (true, [B "a]-"]) /\
  says (B "\x41\x{42}C\.") (B "ABC.") = Some (true, [B "ABC."]) /\ says (B "\p{Lu}\PL") (B "aB1") = Some (true, [B "B1"]) /\
  says (B "\<a\>|b\b{end-half}") (B "ab a") = Some (true, [B "b"; B "a"]) /\ says (B "a{2}b{1,}c{0,1}") (B "aabbb") = Some (true, [B "aabbb"]).
Proof. vm_compute. repeat split. Qed.
Example C66_example_refused :
  Forall (fun t => exs_new t = None) [B "(?P<n>a)(?<n>b)"; B "a)"; B "(a"; B "*a"; B "a|+"; B "a{3,2}"; B "[b-a]"; B "[a"; B "\x{D800}"; B "\p{Greek}"; B "\y"; B "\xG1"; B "\x4"; B "\x{4G}"; B "\x{}"; B "\uD800"; B "a\" ++ [xc3; xa9]; B "(?<=a)"; B "(?ii)a"; B "(?)"; B "(?-)"; B "\"].
Proof. repeat constructor. Qed.
