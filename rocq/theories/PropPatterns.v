(** What the patterns of src/regex.rs accept: C60. *)
From Coq.Strings Require Import String.
From Verif Require Import Base BaseProofs Utf8 SpecUtf8 Utf8Proofs SpecJson Json Patterns Cli SpecCli SpecRegex Regex RegexProofs RegexCompose RegexJoin PropRegex TrimProofs SpecPatterns PatternProofs.
Set Implicit Arguments.
Local Open Scope list_scope.
Notation length := List.length (only parsing).

Fixpoint distinct (l : list bytes) : bool := match l with [] => true | x :: l' => negb (existsb (bytes_eqb x) l') && distinct l' end.
Lemma distinct_NoDup l : distinct l = true -> NoDup l.
Proof.
  induction l as [|x l IH]; cbn [distinct]; intros H; constructor; apply andb_true_iff in H as [H1 H2]; auto. intros Hx. apply negb_true_iff, not_true_iff_false in H1. apply H1.
  apply existsb_exists. exists x. split; auto. now apply bytes_eqb_eq.
Qed.
Lemma builtin_NoDup : NoDup builtin.
Proof. apply distinct_NoDup. vm_compute. reflexivity. Qed.

Section C60.
  (** The tables of Unicode. *)
  Variable same_letter : N -> list N.
  Variables (unicode_digit unicode_word : N -> bool).
  Variable unicode_class : list N -> option (N -> bool).
  Variables (alphabetic alphanumeric : N -> bool).
  Notation parse := (parse_regex same_letter unicode_digit unicode_word unicode_class alphabetic alphanumeric).
  Local Arguments N.leb : simpl nomatch. Local Arguments N.eqb : simpl nomatch.
  Local Arguments white_space : simpl never. Local Arguments fold_class : simpl never. Local Arguments union : simpl never. Local Arguments between : simpl never.

  Definition good (name : bytes) (shapes : list (list part)) : Prop :=
    exists r, parse (chars (text_of name)) = Some (r, []) /\ forall w, Whole w r <-> Shaped shapes w.
  Ltac shape :=
    lazymatch goal with |- good ?name _ => let y := eval vm_compute in (chars (text_of name)) in
      unfold good; replace (chars (text_of name)) with y by (vm_compute; reflexivity) end.
  Ltac kind := intros c; unfold one, maybe, some_of, few; cbn [fst snd];
    unfold white_space, negate, fold_class, union, in_ranges, is, the, white, Chinese, Punct, Letter, Latin1, Digit, Lower, Upper, within; cbn [fst snd existsb];
    unfold between; rewrite ?xorb_false_l, ?andb_false_l, ?orb_false_r, ?orb_false_l, ?negb_true_iff, ?N.eqb_neq, ?orb_true_iff, ?andb_true_iff, ?N.leb_le, ?N.eqb_eq;
    unfold bN; repeat match goal with |- context [Byte.to_N ?b] => let n := eval vm_compute in (Byte.to_N b) in change (Byte.to_N b) with n end; lia.
  Ltac parts := repeat (apply Forall2_cons; [repeat (apply Forall2_cons; [split; [reflexivity|split; [reflexivity|kind]]|]); apply Forall2_nil|]); apply Forall2_nil.
  Ltac shapes := eexists; split; [reflexivity|]; match goal with |- forall w, Whole w _ <-> Shaped ?S w => eapply (@flat_shapes _ _ S S); [cbn; reflexivity|parts|intros; reflexivity] end.
  Lemma all_good : Forall (fun x => good (fst x) (snd x)) pattern_shapes.
  Proof.
    unfold pattern_shapes. repeat (apply Forall_cons; [cbn [fst snd]; shape; cbn; solve [shapes]|]).
    apply Forall_cons; [|apply Forall_nil]. cbn [fst snd]. shape. cbn. eexists. split; [reflexivity|].
    match goal with |- forall w, Whole w ?r <-> _ => change (forall w, Whole w r <-> Shaped (map (fun o => [maybe (the " ")] ++ letters o ++ [maybe (the " ")]) Operators) w) end.
    eapply (@flat_shapes _ _ (map (fun o => [maybe (the " ")] ++ letters o ++ [maybe (the " ")]) operators)).
    - cbn. reflexivity.
    - let ops := eval vm_compute in operators in change operators with ops. cbn [map letters app]. parts.
    - assert (forall a b, forallb (fun o => existsb (bytes_eqb o) b) a = true -> forall o, In o a -> In o b) as HX.
      { intros a b H o Ho. rewrite forallb_forall in H. apply H in Ho. apply existsb_exists in Ho as (o' & H1 & H2). apply bytes_eqb_eq in H2. now subst. }
      assert (forall o, In o operators <-> In o Operators) as HO by (intros o; split; apply HX; vm_compute; reflexivity).
      intros t. rewrite !in_map_iff. split; intros (o & E & H); exists o; split; auto; now apply HO.
  Qed.

  (** The strings that a pattern of the program accepts, as the only one of an allow expression, are those of its shapes. *)
  Theorem C60_patterns : map fst pattern_shapes = builtin /\
    forall name shapes, In (name, shapes) pattern_shapes ->
      exists r, parse (chars (text_of name)) = Some (r, []) /\ forall w, Whole w r <-> Shaped shapes w.
  Proof.
    split; [vm_compute; reflexivity|]. intros name shapes H. pose proof all_good as HG. rewrite Forall_forall in HG. apply (HG _ H).
  Qed.

  (** So an allow expression of patterns of the program accepts the strings of the shapes of one of them. *)
  Theorem C60_allow : forall find names, Forall (fun n => In n builtin) names -> names <> [] ->
    exists accepts found, regex_new same_letter unicode_digit unicode_word unicode_class alphabetic alphanumeric find (allow_text (map text_of names)) = Some (accepts, found) /\
      forall s, accepts s = true <-> exists name shapes, In name names /\ In (name, shapes) pattern_shapes /\ Shaped shapes (chars s).
  Proof.
    intros find names HF Hne. destruct C60_patterns as [HB HP].
    assert (exists rs, Means same_letter unicode_digit unicode_word unicode_class alphabetic alphanumeric (map text_of names) rs /\ Forall (fun p => snd p = []) rs /\
      Forall2 (fun n p => exists shapes, In (n, shapes) pattern_shapes /\ forall w, Whole w (fst p) <-> Shaped shapes w) names rs) as (rs & HM & HE & HS).
    { clear Hne. induction HF as [|n names Hn HF (rs & HM & HE & HS)]. { exists []. repeat split; constructor. }
      rewrite <- HB in Hn. apply in_map_iff in Hn as ([n' shapes] & <- & Hn). cbn [fst]. destruct (HP _ _ Hn) as (r & E & Hr). exists ((r, []) :: rs). repeat split; constructor; auto. exists shapes. auto. }
    destruct (@C50_allow same_letter unicode_digit unicode_word unicode_class alphabetic alphanumeric find (map text_of names) rs) as (r & ns & E & Hr).
    - apply Forall_map. eapply Forall_impl; [|exact HF]. intros n Hn. now apply (builtin_good same_letter unicode_digit unicode_word unicode_class alphabetic alphanumeric Hn).
    - exact HM.
    - apply Forall_map. eapply Forall_impl; [|exact HF]. intros n Hn. now apply (builtin_good same_letter unicode_digit unicode_word unicode_class alphabetic alphanumeric Hn).
    - clear - HE. induction HE as [|p rs Hp HE IH]; cbn [map]; constructor; auto. rewrite Hp. apply Forall_forall. intros x _ y [].
    - unfold regex_new. rewrite E. do 2 eexists. split; [reflexivity|]. intros s. rewrite Hr. split.
      + intros [H|(p & H1 & H2)]; [destruct names; [congruence|discriminate H]|]. clear - HS H1 H2. induction HS as [|n q names rs (shapes & G1 & G2) HS IH]; [destruct H1|]. destruct H1 as [->|H1].
        * exists n, shapes. split; [left; auto|]. split; auto. now apply G2.
        * destruct (IH H1) as (m & sh & I1 & I2). exists m, sh. split; [right|]; auto.
      + intros (n & shapes & I1 & I2 & I3). right. clear - HS I1 I2 I3 HB. 
        assert (NoDup (map fst pattern_shapes)) as HD by (rewrite HB; exact builtin_NoDup).
        induction HS as [|m q names rs (sh & G1 & G2) HS IH]; [destruct I1|]. destruct I1 as [->|I1].
        * exists q. split; [left; auto|]. apply G2. replace sh with shapes; auto. clear - HD G1 I2.
          induction pattern_shapes as [|[k v] l IH]; [destruct I2|]. cbn [map] in HD. inversion HD as [|? ? HN HD']; subst. cbn [fst] in HN. destruct G1 as [G1|G1], I2 as [I2|I2].
          -- congruence.
          -- injection G1 as -> ->. exfalso. apply HN. apply (in_map fst) in I2. exact I2.
          -- injection I2 as -> ->. exfalso. apply HN. apply (in_map fst) in G1. exact G1.
          -- auto.
        * destruct (IH I1) as (p & H1 & H2). exists p. split; [right|]; auto.
  Qed.
End C60.
Print Assumptions C60_patterns.
Print Assumptions C60_allow.
(** Some strings of the shapes, and some others. *)
Example C60_example : Shaped [[maybe (the " "); some_of Letter; one (the "'"); few 2 Letter]] (chars (B " You'll")) /\
  ~ Shaped [[one (the " "); one Digit]] (chars (B "10")).
Proof.
  split.
  - eexists. split; [left; reflexivity|]. change (chars (B " You'll")) with ([32] ++ [89; 111; 117] ++ [39] ++ [108; 108] ++ [])%N.
    repeat (apply Parts_cons; [repeat constructor; unfold the, Letter, Lower, Upper, within; cbn; lia|cbn; lia|cbn; auto; lia|]). constructor.
  - intros (ps & [<-|[]] & H). change (chars (B "10")) with [49; 48]%N in H. unfold one in H. inversion H as [|P min max ps cs rest H1 H2 H3 H4 [E1 E2] E3].
    destruct cs as [|c cs]; [cbn in H2; lia|]. injection E3 as -> _. apply Forall_inv in H1. discriminate H1.
Qed.
