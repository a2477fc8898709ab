(** The parser of Regex.v reads the syntax of SpecSyntax.v. *)
From Coq.Strings Require Import String.
From Coq Require Import Permutation.
From Verif Require Import Base BaseProofs Utf8 SpecUtf8 SpecJson SpecRegex Regex SpecFind RegexProofs RegexCompose Find FindProofs SpecSyntax.
Set Implicit Arguments.
Local Open Scope list_scope.
Local Ltac splits := repeat match goal with |- _ /\ _ => split end.

Notation length := List.length (only parsing).

(** ** Expressions that differ only in how their sets are given *)
Inductive Same : re -> re -> Prop :=
| S_empty : Same Empty Empty
| S_one p q : (forall c, p c = q c) -> Same (One p) (One q)
| S_look f g : (forall w i, f w i = g w i) -> Same (Look f) (Look g)
| S_cat a b a' b' : Same a a' -> Same b b' -> Same (Cat a b) (Cat a' b')
| S_alt a b a' b' : Same a a' -> Same b b' -> Same (Alt a b) (Alt a' b')
| S_rep min max g a a' : Same a a' -> Same (Rep min max g a) (Rep min max g a')
| S_unit a a' e : Same a a' -> Same Empty e -> Same a (Cat a' e).

Lemma times_same (s s' : nat -> list nat) : (forall i, s i = s' i) -> forall k i, times s k i = times s' k i.
Proof. intros H. induction k as [|k IH]; intros i; auto. cbn. rewrite H. apply flat_map_ext. auto. Qed.
Lemma optional_same (s s' : nat -> list nat) g : (forall i, s i = s' i) -> forall k i, optional s g k i = optional s' g k i.
Proof. intros H. induction k as [|k IH]; intros i; auto. cbn. rewrite H. f_equal. apply flat_map_ext. auto. Qed.
Lemma plus_same (s s' : nat -> list nat) g : (forall i, s i = s' i) -> forall k i, plus s g k i = plus s' g k i.
Proof. intros H. induction k as [|k IH]; intros i; auto. cbn. rewrite H. apply flat_map_ext. intros j. f_equal. now rewrite IH. Qed.
Lemma flat_map_single A (l : list A) : flat_map (fun x => [x]) l = l.
Proof. induction l; cbn; congruence. Qed.

Lemma Same_tries w a b : Same a b -> forall i, tries w a i = tries w b i.
Proof.
  induction 1 as [|p q H|f g H|a b a' b' _ IH1 _ IH2|a b a' b' _ IH1 _ IH2|min max g a a' _ IH|a a' e _ IH1 _ IH2]; intros i; cbn [tries].
  - reflexivity.
  - destruct (nth_error w i); auto. now rewrite H.
  - now rewrite H.
  - rewrite IH1. apply flat_map_ext. auto.
  - now rewrite IH1, IH2.
  - destruct max as [m|].
    + destruct (min <=? m); auto. rewrite (times_same _ _ IH). apply flat_map_ext. intros j. now apply optional_same.
    + destruct min as [|k]. { f_equal. now apply plus_same. } rewrite (times_same _ _ IH). apply flat_map_ext. intros j. now apply plus_same.
  - rewrite <- IH1. rewrite (@flat_map_ext _ _ (tries w e) (fun i => [i])). symmetry. apply flat_map_single. intros j. now rewrite <- IH2.
Qed.
Lemma Same_Match w a b i j : Same a b -> Match w a i j <-> Match w b i j.
Proof.
  intros H. destruct (le_lt_dec i (length w)) as [Hi|Hi].
  - rewrite <- !tries_spec by auto. now rewrite (Same_tries w H).
  - split; intros G; apply Match_le in G; lia.
Qed.
Lemma Same_find_all w a b : Same a b -> find_all w a = find_all w b.
Proof.
  intros H. assert (forall n i, search w a n i = search w b n i) as Hs.
  { induction n as [|n IH]; intros i; auto. cbn. rewrite (Same_tries w H). destruct (tries w b i); auto. }
  assert (forall n last start, find_loop n w a start last = find_loop n w b start last) as Hl; [|apply Hl].
  induction n as [|n IH]; intros last start; auto. cbn [find_loop]. unfold search_from. rewrite !Hs.
  destruct (search w b _ start) as [[i j]|]; auto.
  destruct (_ && _); [destruct (search w b _ (S start)) as [[i' j']|]; auto|]; now rewrite IH.
Qed.

Lemma NoDup_left A (a b : list A) : NoDup (a ++ b) -> NoDup a.
Proof. induction a as [|x a IH]; cbn; intros H; [constructor|]. inversion H; subst. constructor; auto. intros G. apply H2, in_or_app; auto. Qed.
(** ** Lexical elements *)
Lemma is_in b c s : ~ In c (T s) -> In b (B s) -> is b c = false.
Proof. intros H Hb. unfold is. apply N.eqb_neq. intros ->. apply H. unfold T. now apply in_map. Qed.

Definition fl (m : mode) : flags := Flags (ignore_case m) (multi_line m) (dot_all m) (swap_greed m) (crlf m) false.

Lemma hex_digit_of d x : Digit d x -> hex_digit d = Some x.
Proof.
  intros H. unfold hex_digit, between.
  repeat match goal with |- context [N.leb ?a ?b] => destruct (N.leb_spec a b) end; cbn [andb]; destruct H as [[G1 G2]|[G1 [G2|G2]]]; try (f_equal; lia); exfalso; lia.
Qed.
Lemma digit_range d x : Digit d x -> ((0x30 <= d <= 0x39) \/ (0x41 <= d <= 0x46) \/ (0x61 <= d <= 0x66))%N.
Proof. intros [[-> H]|[H [-> | ->]]]; lia. Qed.
Lemma hex_digits_of ds n : Numeral 16 ds n -> forall k rest acc,
  hex_digits false (length ds + k) (ds ++ rest) acc = hex_digits false k rest (16 ^ N.of_nat (length ds) * acc + n).
Proof.
  induction 1 as [|ds n d x H IH Hd Hx]; intros k rest acc. { cbn [List.length Nat.add app]. change (N.of_nat 0) with 0%N. rewrite N.pow_0_r, N.mul_1_l, N.add_0_r. reflexivity. }
  rewrite app_length, <- !app_assoc. cbn [List.length app]. replace (length ds + 1 + k) with (length ds + S k) by lia.
  rewrite IH. cbn [hex_digits bump_space]. rewrite (hex_digit_of Hd). f_equal.
  replace (N.of_nat (length ds + 1)) with (N.succ (N.of_nat (length ds))) by lia. rewrite N.pow_succ_r'. lia.
Qed.
Lemma hex_brace_of ds n : Numeral 16 ds n -> forall k rest cnt acc,
  hex_brace false (length ds + k) (ds ++ rest) cnt acc = hex_brace false k rest (cnt + length ds) (16 ^ N.of_nat (length ds) * acc + n).
Proof.
  induction 1 as [|ds n d x H IH Hd Hx]; intros k rest cnt acc. { cbn [List.length Nat.add app]. change (N.of_nat 0) with 0%N. rewrite N.pow_0_r, N.mul_1_l, N.add_0_r, Nat.add_0_r. reflexivity. }
  rewrite app_length, <- !app_assoc. cbn [List.length app]. replace (length ds + 1 + k) with (length ds + S k) by lia.
  rewrite IH. cbn [hex_brace bump_space]. rewrite (hex_digit_of Hd).
  assert (is "}" d = false) as ->. { unfold is. apply N.eqb_neq. apply digit_range in Hd. change (bN "}") with 0x7D%N. lia. }
  f_equal; [lia|]. replace (N.of_nat (length ds + 1)) with (N.succ (N.of_nat (length ds))) by lia. rewrite N.pow_succ_r'. lia.
Qed.
Lemma digits_loop_of ds n : Numeral 10 ds n -> forall k rest cnt acc,
  digits_loop false (length ds + k) (ds ++ rest) cnt acc = digits_loop false k rest (cnt + length ds) (10 ^ N.of_nat (length ds) * acc + n).
Proof.
  induction 1 as [|ds n d x H IH Hd Hx]; intros k rest cnt acc. { cbn [List.length Nat.add app]. change (N.of_nat 0) with 0%N. rewrite N.pow_0_r, N.mul_1_l, N.add_0_r, Nat.add_0_r. reflexivity. }
  rewrite app_length, <- !app_assoc. cbn [List.length app]. replace (length ds + 1 + k) with (length ds + S k) by lia.
  rewrite IH. cbn [digits_loop bump_space].
  assert (d = 0x30 + x)%N as -> by (destruct Hd as [[-> _]|[Hd _]]; lia).
  unfold between. rewrite (proj2 (N.leb_le _ _)), (proj2 (N.leb_le _ 0x39)) by lia. cbn [andb].
  f_equal; [lia|]. replace (N.of_nat (length ds + 1)) with (N.succ (N.of_nat (length ds))) by lia. rewrite N.pow_succ_r'. lia.
Qed.
Lemma numeral_first base ds n : Numeral base ds n -> ds <> [] -> exists d x ds', ds = d :: ds' /\ Digit d x /\ (x < base)%N.
Proof.
  induction 1 as [|ds n d x H IH Hd Hx]; [congruence|]. intros _. destruct ds as [|e ds]. { exists d, x, []. auto. }
  destruct IH as (d' & x' & ds' & [= -> ->] & G1 & G2); [congruence|]. exists d', x', (ds' ++ [d]). auto.
Qed.
Lemma scalar_of c : Scalar c -> is_scalar c = true.
Proof.
  unfold is_scalar, between. intros [H|H]. rewrite (proj2 (N.ltb_lt _ _)) by lia. reflexivity.
  rewrite (proj2 (N.leb_le _ _)), (proj2 (N.leb_le _ 0x10FFFF)) by lia. apply Bool.orb_true_r.
Qed.

(** Texts and tests of known characters are computed. *)
Local Ltac texts := unfold C in *;
  repeat match goal with
  | |- context [T ?s] => let v := eval vm_compute in (T s) in change (T s) with v
  | H : context [T ?s] |- _ => let v := eval vm_compute in (T s) in change (T s) with v in H
  end.
Local Ltac tests :=
  repeat match goal with
  | |- context [is ?b ?c] => let v := eval vm_compute in (is b c) in match v with true => change (is b c) with true | false => change (is b c) with false end
  end; cbn iota.
Lemma hex_of ds c rest : Numeral 16 ds c -> Scalar c -> ds <> [] -> parse_hex false (length ds) (ds ++ rest) = Some (PChar c, rest).
Proof.
  intros H Hc Hne. unfold parse_hex. cbn [bump_space]. destruct (numeral_first H Hne) as (d & x & ds' & E & Hd & _).
  pose proof (hex_digits_of H 0 rest 0) as HX. rewrite Nat.add_0_r in HX. rewrite E in *. cbn [app] in *.
  assert (is "{" d = false) as ->. { unfold is. apply N.eqb_neq. apply digit_range in Hd. change (bN "{") with 0x7B%N. lia. }
  rewrite HX. cbn [hex_digits]. rewrite N.mul_0_r, N.add_0_l. now rewrite (scalar_of Hc).
Qed.
Lemma hex_braced ds c k rest : Numeral 16 ds c -> Scalar c -> ds <> [] -> parse_hex false k (T "{" ++ ds ++ T "}" ++ rest) = Some (PChar c, rest).
Proof.
  intros H Hc Hne. texts. unfold parse_hex. cbn [app bump_space]. tests.
  pose proof (@hex_brace_of _ _ H (length rest + 2) (0x7D%N :: rest) 0 0) as HX.
  replace (length (0x7B%N :: ds ++ 0x7D%N :: rest)) with (length ds + (length rest + 2)).
  2: { cbn [List.length]. rewrite app_length. cbn [List.length]. lia. }
  rewrite HX. replace (length rest + 2) with (S (length rest + 1)) by lia. cbn [hex_brace]. tests.
  destruct ds as [|d ds]; [congruence|]. cbn [List.length Nat.add Nat.eqb bump_space]. rewrite N.mul_0_r, N.add_0_l. now rewrite (scalar_of Hc).
Qed.

Scheme Item_mut := Minimality for Item Sort Prop with Items_mut := Minimality for Items Sort Prop
  with Body_mut := Minimality for Body Sort Prop with Class_mut := Minimality for Class Sort Prop.
Combined Scheme class_ind from Item_mut, Items_mut, Body_mut, Class_mut.
Scheme Atom_mut := Minimality for Atom Sort Prop with Piece_mut := Minimality for Piece Sort Prop
  with Branch_mut := Minimality for Branch Sort Prop with Alts_mut := Minimality for Alts Sort Prop.
Combined Scheme syntax_ind from Atom_mut, Piece_mut, Branch_mut, Alts_mut.

Section Syntax.
  Variable same_letter : N -> list N.
  Variables (unicode_digit unicode_word : N -> bool).
  Variable unicode_class : list N -> option (N -> bool).
  Variables (alphabetic alphanumeric : N -> bool).
  Notation p_escape := (parse_escape same_letter unicode_digit unicode_word unicode_class).
  Notation c_prim := (class_prim same_letter unicode_digit unicode_word unicode_class).
  Notation c_range := (class_range same_letter unicode_digit unicode_word unicode_class).
  Notation c_items := (class_items same_letter unicode_digit unicode_word unicode_class).
  Notation p_class := (parse_class same_letter unicode_digit unicode_word unicode_class).
  Notation p_loop := (parse_loop same_letter unicode_digit unicode_word unicode_class alphabetic alphanumeric).

  Lemma escaped_char m t c rest : Escaped t c -> p_escape (fl m) (t ++ rest) = Some (PChar c, rest).
  Proof.
    intros [c0 H1 H2 H3|l c0 H|l k ds c0 H1 H2 H3 H4|l ds c0 H1 H2 H3 H4].
    - unfold parse_escape. cbn [app].
      repeat match goal with |- context [if is ?b c0 then _ else _] =>
        replace (is b c0) with false; [|symmetry; first [apply (@is_in b c0 "<>"); [assumption|cbn; tauto]|
          unfold is; apply N.eqb_neq; intros ->; apply H2; unfold Alnum; vm_compute; intuition congruence]] end.
      unfold Alnum in H2. unfold between.
      repeat match goal with |- context [N.leb ?a ?b] => destruct (N.leb_spec a b); cbn [andb orb]; try (exfalso; lia) end;
      (destruct (N.ltb_spec 0x7F c0); [exfalso; lia|reflexivity]).
    - destruct H as [E|[E|[E|[E|[E|[E|[]]]]]]]; injection E as <- <-; reflexivity.
    - assert (ds <> []) as Hne. { intros ->. destruct H1 as [E|[E|[E|[]]]]; injection E as <- <-; discriminate. }
      destruct H1 as [E|[E|[E|[]]]]; injection E as <- <-; cbn [app]; unfold parse_escape, C; tests; cbn [fl f_x]; rewrite <- H2; now apply hex_of.
    - assert (In l [C "x"; C "u"; C "U"]) as H5 by exact H1. rewrite <- !app_assoc. cbn [app].
      destruct H5 as [<-|[<-|[<-|[]]]]; unfold parse_escape, C; tests; cbn [fl f_x]; now apply hex_braced.
  Qed.

  Notation folded := (Folded same_letter).
  Lemma fold_is m p P : Is p P -> Is (fold_class same_letter (ignore_case m) p) (folded m P).
  Proof.
    intros H c. unfold fold_class, Folded. rewrite Bool.orb_true_iff, Bool.andb_true_iff, existsb_exists, (H c).
    split; (intros [G|(G1 & d & G2 & G3)]; [auto|]; right; split; auto; exists d; split; auto; now apply H).
  Qed.
  Lemma not_is p P : Is p P -> Is (negate true p) (fun c => ~ P c).
  Proof. clear same_letter unicode_digit unicode_word unicode_class alphabetic alphanumeric. intros H c. unfold negate. specialize (H c). destruct (p c); cbn; split; try congruence; intuition congruence. Qed.
  Lemma yes_is p P : Is p P -> Is (negate false p) P.
  Proof. intros H c. unfold negate. specialize (H c). destruct (p c); cbn; tauto. Qed.
  Lemma or_is p q P Q : Is p P -> Is q Q -> Is (union p q) (Or P Q).
  Proof. intros H1 H2 c. unfold union, Or. now rewrite Bool.orb_true_iff, (H1 c), (H2 c). Qed.
  Lemma eq_is c : Is (N.eqb c) (eq c).
  Proof. clear same_letter unicode_digit unicode_word unicode_class alphabetic alphanumeric. intros d. apply N.eqb_eq. Qed.
  Lemma range_is lo hi : Is (between lo hi) (fun c => lo <= c <= hi)%N.
  Proof. clear same_letter unicode_digit unicode_word unicode_class alphabetic alphanumeric. intros c. unfold between. rewrite Bool.andb_true_iff, !N.leb_le. tauto. Qed.
  Lemma space_is : Is white_space (fun c => In c spaces).
  Proof. clear same_letter unicode_digit unicode_word unicode_class alphabetic alphanumeric.
    intros c. unfold white_space, in_ranges. cbn [existsb fst snd spaces In]. unfold between.
    rewrite !Bool.orb_true_iff, !Bool.andb_true_iff, !N.leb_le. lia.
  Qed.
  Lemma is_ext p P Q : Is p P -> (forall c, P c <-> Q c) -> Is p Q.
  Proof. intros H G c. rewrite <- (G c). apply H. Qed.
  Lemma is_same p q P : Is p P -> Is q P -> forall c, p c = q c.
  Proof. intros H1 H2 c. apply Bool.eq_iff_eq_true. now rewrite (H1 c), (H2 c). Qed.

  Lemma named_of name t rest : Named name t -> match t ++ rest with
    | [] => False
    | c :: s1 => (if is "{" c then text_until false "}" (length s1) s1 else if is "\" c then None else Some ([c], s1)) = Some (name, rest) end.
  Proof.
    intros [[-> H]|[-> (c & -> & H)]].
    - texts. cbn [app]. tests. rewrite <- app_assoc. apply (@text_until_of "}"); auto. rewrite app_length. cbn. lia.
    - cbn [app]. rewrite (@is_in "{" c "{\"), (@is_in "\" c "{\"); auto; cbn; tauto.
  Qed.
  Lemma kind_of m t P rest : Kind same_letter unicode_digit unicode_word unicode_class m t P ->
    exists p, p_escape (fl m) (t ++ rest) = Some (PClass p, rest) /\ Is p P.
  Proof.
    intros [| | | | | |name t0 p Hp Hn|name t0 p Hp Hn]; texts; cbn [app]; unfold parse_escape; tests.
    1-6: eexists; split; [reflexivity|].
    - intros c; tauto.
    - intros c. unfold negate. destruct (unicode_digit c); cbn; split; congruence.
    - apply space_is.
    - apply not_is, space_is.
    - intros c; tauto.
    - intros c. unfold negate. destruct (unicode_word c); cbn; split; congruence.
    - pose proof (named_of rest Hn) as HX. unfold parse_unicode_class. cbn [fl f_x f_i bump_space].
      destruct (t0 ++ rest) as [|c s1]; [contradiction|]. rewrite HX, Hp. eexists. split; [reflexivity|]. apply yes_is, fold_is. intros d; tauto.
    - pose proof (named_of rest Hn) as HX. unfold parse_unicode_class. cbn [fl f_x f_i bump_space].
      destruct (t0 ++ rest) as [|c s1]; [contradiction|]. rewrite HX, Hp. eexists. split; [reflexivity|]. apply not_is, fold_is. intros d; tauto.
  Qed.

  (** What may come after an atom: if a brace, then with a number. *)
  Definition Braces (rest : list N) : Prop := forall s, rest = C "{" :: s -> exists d s', s = d :: s' /\ (0x30 <= d <= 0x39)%N.
  Lemma before_is p P w i : Is p P -> before p w i = true <-> Before P w i.
  Proof.
    intros H. unfold before, Before. destruct i as [|k]. { split; [discriminate|]. intros (k & c & [=] & _). }
    destruct (nth_error w k) as [c|] eqn:E.
    - rewrite (H c). split. { intros G. exists k, c. auto. } intros (k' & c' & [= <-] & G1 & G2). congruence.
    - split; [discriminate|]. intros (k' & c' & [= <-] & G1 & G2). congruence.
  Qed.
  Lemma after_is p P w i : Is p P -> after p w i = true <-> After P w i.
  Proof.
    intros H. unfold after, After. destruct (nth_error w i) as [c|] eqn:E.
    - rewrite (H c). split. { intros G. exists c. auto. } intros (c' & G1 & G2). congruence.
    - split; [discriminate|]. intros (c' & G1 & G2). congruence.
  Qed.
  Notation word := (fun c => unicode_word c = true).
  Lemma word_is : Is unicode_word word. Proof. intros c. tauto. Qed.
  Lemma place_of m t P rest : Place unicode_word t P -> Braces rest -> exists f, p_escape (fl m) (t ++ rest) = Some (PLook f, rest) /\ At f P.
  Proof.
    assert (forall w i, before unicode_word w i = true <-> Before word w i) as HB by (intros; apply before_is, word_is).
    assert (forall w i, after unicode_word w i = true <-> After word w i) as HA by (intros; apply after_is, word_is).
    assert (forall (f : list N -> nat -> bool) (g : bool -> bool -> bool) (Q : Prop -> Prop -> Prop), (forall w i, f w i = g (before unicode_word w i) (after unicode_word w i)) ->
      (forall a b X Y, (a = true <-> X) -> (b = true <-> Y) -> (g a b = true <-> Q X Y)) -> At f (fun w i => Q (Before word w i) (After word w i))) as HX.
    { intros f g Q H1 H2 w i. rewrite H1. apply H2; auto. }
    intros [| | | |t0 H|t0 H| |] Hr.
    - eexists. split; [reflexivity|]. intros w i. apply Nat.eqb_eq.
    - eexists. split; [reflexivity|]. intros w i. apply Nat.eqb_eq.
    - exists (word_boundary unicode_word). split.
      + texts. cbn [app]. unfold parse_escape. tests. unfold parse_boundary. destruct rest as [|c s]; auto. cbn [fl f_x bump_space].
        destruct (is "{" c) eqn:Ec; auto. apply is_true in Ec. subst c. destruct (Hr s) as (d & s' & -> & Hd); auto.
        assert (in_word_kind d = false) as ->; auto. unfold in_word_kind, between, is. change (bN "-") with 0x2D%N.
        repeat match goal with |- context [N.leb ?a ?b] => destruct (N.leb_spec a b) end; cbn [andb orb]; try (exfalso; lia); apply N.eqb_neq; lia.
      + apply (HX _ xorb (fun X Y => X /\ ~ Y \/ ~ X /\ Y)). { reflexivity. } intros a b X Y H1 H2. destruct a, b; cbn; intuition congruence.
    - eexists. split; [reflexivity|]. apply (HX _ (fun a b => negb (xorb a b)) (fun X Y => X /\ Y \/ ~ X /\ ~ Y)). { reflexivity. }
      intros a b X Y H1 H2. destruct a, b; cbn; intuition congruence.
    - exists (word_start unicode_word). split. { destruct H as [<-|[<-|[]]]; reflexivity. }
      apply (HX _ (fun a b => negb a && b) (fun X Y => ~ X /\ Y)). { reflexivity. } intros a b X Y H1 H2. destruct a, b; cbn; intuition congruence.
    - exists (word_end unicode_word). split. { destruct H as [<-|[<-|[]]]; reflexivity. }
      apply (HX _ (fun a b => a && negb b) (fun X Y => X /\ ~ Y)). { reflexivity. } intros a b X Y H1 H2. destruct a, b; cbn; intuition congruence.
    - exists (word_start_half unicode_word). split; [reflexivity|].
      apply (HX _ (fun a b => negb a) (fun X Y => ~ X)). { reflexivity. } intros a b X Y H1 H2. destruct a, b; cbn; intuition congruence.
    - exists (word_end_half unicode_word). split; [reflexivity|].
      apply (HX _ (fun a b => negb b) (fun X Y => ~ Y)). { reflexivity. } intros a b X Y H1 H2. destruct a, b; cbn; intuition congruence.
  Qed.

  (** ** Classes *)
  Notation item := (Item same_letter unicode_digit unicode_word unicode_class).
  Notation items := (Items same_letter unicode_digit unicode_word unicode_class).
  Notation body := (Body same_letter unicode_digit unicode_word unicode_class).
  Notation class := (Class same_letter unicode_digit unicode_word unicode_class).
  Lemma class_char_of m t c rest : Class_char t c -> c_prim (fl m) (t ++ rest) = Some (PChar c, rest).
  Proof.
    intros [c0 H|t0 c0 H].
    - cbn. rewrite (@is_in "\" c0 "[]\-&~^"); auto. cbn; tauto.
    - texts. rewrite <- app_assoc. cbn [app class_prim]. tests. now apply escaped_char.
  Qed.
  Lemma class_char_first t c : Class_char t c -> exists d s, t = d :: s /\ ~ In d (T "[]-&~^").
  Proof.
    intros [c0 H|t0 c0 H].
    - exists c0, []. split; auto. intros G. apply H. texts. cbn in *. tauto.
    - texts. exists 0x5C%N, t0. split; auto. cbn. lia.
  Qed.
  (** What may come after an item: if a dash, then with another one or the end of the class. *)
  Definition Dashes (rest : list N) : Prop := rest <> [] /\ forall s, rest = C "-" :: s -> exists d s', s = d :: s' /\ (d = C "-" \/ d = C "]").
  Lemma Dashes_other c rest : c <> C "-" -> Dashes (c :: rest).
  Proof. intros H. split; [congruence|]. intros s E. exfalso. apply H. now inversion E. Qed.
  Lemma single_of m s p s1 : c_prim (fl m) s = Some (p, s1) -> Dashes s1 ->
    c_range (fl m) s = match p with PChar c => Some (N.eqb c, s1) | PClass p => Some (p, s1) | PLook _ => None end.
  Proof.
    intros H [H1 H2]. unfold class_range. rewrite H. cbn [fl f_x bump_space].
    destruct s1 as [|d s2]; [congruence|]. destruct s2 as [|c s3]; [reflexivity|].
    destruct (is "-" d) eqn:Ed; cbn [andb]; [|reflexivity]. apply is_true in Ed. subst d.
    destruct (H2 _ eq_refl) as (e & s' & [= <- <-] & [-> | ->]); reflexivity.
  Qed.
  Lemma range_of m t1 lo t2 hi rest : Class_char t1 lo -> Class_char t2 hi -> (lo <= hi)%N ->
    c_range (fl m) ((t1 ++ T "-" ++ t2) ++ rest) = Some (between lo hi, rest).
  Proof.
    intros H1 H2 H. texts. rewrite <- !app_assoc. cbn [app]. unfold class_range. rewrite (class_char_of m _ H1). cbn [fl f_x bump_space].
    destruct (class_char_first H2) as (d & s & -> & Hd). cbn [app]. tests. cbn [andb].
    rewrite (@is_in "]" d "[]-&~^"), (@is_in "-" d "[]-&~^") by (auto; cbn; tauto). cbn [orb negb].
    fold (fl m). change (Flags (ignore_case m) (multi_line m) (dot_all m) (swap_greed m) (crlf m) false) with (fl m).
    change (d :: s ++ rest) with ((d :: s) ++ rest). rewrite (class_char_of m _ H2). now rewrite (proj2 (N.leb_le _ _) H).
  Qed.
  Lemma items_step m fuel c s q s1 pending p : ~ In c (T "[]-&~^") -> c_range (fl m) (c :: s) = Some (q, s1) ->
    c_items (fl m) (S fuel) (c :: s) pending p = c_items (fl m) fuel s1 pending (union p q).
  Proof.
    intros Hc H. cbn [class_items fl f_x bump_space]. fold (fl m).
    rewrite (@is_in "]" c "[]-&~^"), (@is_in "[" c "[]-&~^") by (auto; cbn; tauto).
    assert (parse_op (c :: s) = None) as ->.
    { unfold parse_op. destruct s; auto. rewrite (@is_in "&" c "[]-&~^"), (@is_in "-" c "[]-&~^"), (@is_in "~" c "[]-&~^") by (auto; cbn; tauto). reflexivity. }
    change (Flags (ignore_case m) (multi_line m) (dot_all m) (swap_greed m) (crlf m) false) with (fl m). now rewrite H.
  Qed.

  Definition lead (s : list N) : (N -> bool) * list N :=
    let '(dash, s2) := class_dashes false (length s) s in
    match s2 with
    | c :: s3 => if negb dash && is "]" c then (N.eqb c, s3) else (fun c => dash && is "-" c, s2)
    | [] => (fun c => dash && is "-" c, s2)
    end.
  Lemma open_any m s : hd_error s <> Some (C "^") -> class_open (fl m) s = (false, fst (lead s), snd (lead s)).
  Proof.
    intros H. unfold class_open, lead. cbn [fl f_x bump_space]. destruct s as [|c s].
    - reflexivity.
    - assert (is "^" c = false) as ->. { unfold is. apply N.eqb_neq. intros ->. now apply H. }
      destruct (class_dashes false _ (c :: s)) as [dash [|d s3]]; [reflexivity|]. destruct (negb dash && is "]" d); reflexivity.
  Qed.
  Lemma open_no m s : class_open (fl m) (C "^" :: s) = (true, fst (lead s), snd (lead s)).
  Proof.
    unfold class_open, lead, C. cbn [fl f_x bump_space]. tests.
    destruct (class_dashes false _ s) as [dash [|d s3]]; [reflexivity|]. destruct (negb dash && is "]" d); reflexivity.
  Qed.
  Lemma lead_other c s : c <> C "-" -> c <> C "]" -> exists first, lead (c :: s) = (first, c :: s) /\ forall d, first d = false.
  Proof.
    intros H1 H2. unfold lead. cbn [List.length class_dashes]. unfold is at 1. rewrite (proj2 (N.eqb_neq c _)) by exact H1.
    unfold is at 1. rewrite (proj2 (N.eqb_neq c _)) by exact H2. cbn. eexists. split; [reflexivity|]. reflexivity.
  Qed.
  Lemma lead_bracket s : lead (C "]" :: s) = (N.eqb (C "]"), s).
  Proof. reflexivity. Qed.
  Lemma dashes_of k : forall fuel c s, k < fuel -> c <> C "-" -> class_dashes false fuel (repeat (C "-") (S k) ++ c :: s) = (true, c :: s).
  Proof.
    induction k as [|k IH]; intros fuel c s Hf Hc; (destruct fuel as [|fuel]; [lia|]); cbn [repeat app class_dashes bump_space]; unfold C at 1; tests.
    - destruct fuel; cbn [class_dashes snd]; auto. unfold is. rewrite (proj2 (N.eqb_neq c _)) by exact Hc. reflexivity.
    - change (C "-" :: repeat (C "-") k ++ c :: s) with (repeat (C "-") (S k) ++ c :: s). rewrite IH; auto. lia.
  Qed.
  Lemma lead_dashes k c s : c <> C "-" -> exists first, lead (repeat (C "-") (S k) ++ c :: s) = (first, c :: s) /\ Is first (eq (C "-")).
  Proof.
    intros Hc. unfold lead. rewrite dashes_of; auto. 2: { rewrite app_length, repeat_length. cbn. lia. }
    cbn [negb andb]. eexists. split; [reflexivity|]. intros d. cbn [andb]. unfold is. rewrite N.eqb_eq. unfold C. split; congruence.
  Qed.

  Lemma class_first m t P : class m t P -> exists s, t = C "[" :: s.
  Proof. intros [closed t0 P0 _|closed t0 P0 _]; texts; cbn [app]; eexists; reflexivity. Qed.
  Lemma item_first m t P : item m t P -> exists d s, t = d :: s /\ ~ In d (T "]-&~^").
  Proof.
    assert (forall d, ~ In d (T "[]-&~^") -> ~ In d (T "]-&~^")) as HX. { intros d H G. apply H. texts. cbn in *. tauto. }
    intros [t0 c H|t1 lo t2 hi H1 H2 _|t0 P0 H|name P0 H|name P0 H|t0 P0 H _].
    - destruct (class_char_first H) as (d & s & -> & Hd). exists d, s. auto.
    - destruct (class_char_first H1) as (d & s & -> & Hd). cbn [app]. eexists _, _. split; [reflexivity|]. auto.
    - texts. cbn [app]. eexists _, _. split; [reflexivity|]. cbn; lia.
    - texts. cbn [app]. eexists _, _. split; [reflexivity|]. cbn; lia.
    - texts. cbn [app]. eexists _, _. split; [reflexivity|]. cbn; lia.
    - destruct (class_first H) as (s & ->). exists (C "["), s. split; auto. vm_compute. intuition congruence.
  Qed.
  Lemma items_first m t P : items m t P -> exists d s, t = d :: s /\ ~ In d (T "]-&~^").
  Proof.
    intros [t0 P0 H|t1 P0 t2 Q H _]; destruct (item_first H) as (d & s & -> & Hd). exists d, s; auto. cbn [app]. eexists _, _. split; [reflexivity|auto].
  Qed.
  Lemma items_Dashes m t P rest : items m t P -> Dashes (t ++ rest).
  Proof. intros H. destruct (items_first H) as (d & s & -> & Hd). cbn [app]. apply Dashes_other. intros ->. apply Hd. vm_compute. tauto. Qed.

  Lemma posix_of name P : Posix name P -> exists rs, posix_named name = Some rs /\ Is (in_ranges rs) P.
  Proof.
    intros H.
    assert (exists rs, posix_named name = Some rs) as (rs & E) by (destruct H; eexists; vm_compute; reflexivity).
    exists rs. split; auto. destruct H; vm_compute in E; injection E as <-; intros c; unfold in_ranges; cbn [existsb fst snd]; unfold between;
      rewrite ?Bool.orb_true_iff, ?Bool.andb_true_iff, ?N.leb_le; unfold Lower, Upper, Decimal, Graphic, Alnum, C; texts; cbn [In];
      try change (bN "_") with 95%N; lia.
  Qed.
  Lemma operator_of o opP : Operator o opP -> exists op, (forall s, parse_op (o ++ s) = Some (op, s)) /\
    (forall p q P Q, Is p P -> Is q Q -> Is (fun c => op_class op (p c) (q c)) (opP P Q)) /\ Dashes o /\
    exists a b, o = [a; b] /\ is "[" a = false /\ is "]" a = false.
  Proof.
    intros [| |]; eexists; (split; [intros s; reflexivity|]);
      (split; [intros p q P Q H1 H2 c; specialize (H1 c); specialize (H2 c); cbn [op_class]; destruct (p c), (q c); cbn; intuition congruence|]);
      (split; [|eexists _, _; splits; reflexivity]); (split; [discriminate|]); intros s E; try discriminate E.
    injection E as <-. eexists _, _. split; [reflexivity|]. auto.
  Qed.
  Lemma Dashes_app a rest : Dashes a -> length a = 2 -> Dashes (a ++ rest).
  Proof.
    intros [H1 H2] Hl. destruct a as [|x [|y [|]]]; try discriminate. split; [discriminate|]. cbn [app]. intros s E.
    assert (x = C "-") as -> by congruence. destruct (H2 _ eq_refl) as (d & s' & [= <- _] & G). inversion E; subst. eexists _, _. split; [reflexivity|auto].
  Qed.
  Lemma dash_step m fuel rest pending p :
    c_items (fl m) (S fuel) (C "-" :: C "]" :: rest) pending p = c_items (fl m) fuel (C "]" :: rest) pending (union p (N.eqb (C "-"))).
  Proof. destruct rest; reflexivity. Qed.

  Lemma fl_i m : f_i (fl m) = ignore_case m. Proof. reflexivity. Qed.
  Lemma items_bracket m fuel rest pending q : c_items (fl m) (S fuel) (C "]" :: rest) pending q = Some (close_op same_letter (fl m) pending q, rest).
  Proof. reflexivity. Qed.
  Lemma items_op m fuel o op a b s pending q : o = [a; b] -> is "[" a = false -> is "]" a = false -> parse_op (o ++ s) = Some (op, s) ->
    c_items (fl m) (S fuel) (o ++ s) pending q = c_items (fl m) fuel s (Some (close_op same_letter (fl m) pending q, op)) (fun _ => false).
  Proof. intros -> H1 H2 H3. cbn [class_items app fl f_x bump_space] in *. rewrite H1, H2, H3. reflexivity. Qed.

  Lemma class_of m :
    (forall t P, item m t P -> forall fuel rest pending p, Dashes rest -> length (t ++ rest) < fuel ->
      exists k q, c_items (fl m) fuel (t ++ rest) pending p = c_items (fl m) k rest pending (union p q) /\ Is q P /\ fuel <= k + length t) /\
    (forall t P, items m t P -> forall fuel rest pending p, Dashes rest -> length (t ++ rest) < fuel ->
      exists k q, c_items (fl m) fuel (t ++ rest) pending p = c_items (fl m) k rest pending q /\ (forall Q, Is p Q -> Is q (Or Q P)) /\ fuel <= k + length t) /\
    (forall closed t P, body m closed t P -> forall fuel rest, (closed = true -> exists s, rest = C "]" :: s) -> Dashes rest -> length (t ++ rest) < fuel ->
      exists k pending q, c_items (fl m) fuel (snd (lead (t ++ rest))) None (fst (lead (t ++ rest))) = c_items (fl m) k rest pending q /\
        Is (close_op same_letter (fl m) pending q) P /\ fuel <= k + length t /\ hd_error (t ++ rest) <> Some (C "^")) /\
    (forall t P, class m t P -> forall fuel rest, length (t ++ rest) <= fuel ->
      exists s neg first s1 q, t = C "[" :: s /\ s <> [] /\ class_open (fl m) (s ++ rest) = (neg, first, s1) /\
        c_items (fl m) fuel s1 None first = Some (q, rest) /\ Is (negate neg (fold_class same_letter (ignore_case m) q)) P).
  Proof.
    apply class_ind.
    (* items *)
    - intros t c H fuel rest pending p Hr Hf. destruct (class_char_first H) as (d & s & -> & Hd). destruct fuel as [|fuel]; [lia|].
      pose proof (class_char_of m rest H) as Hp. cbn [app] in *. pose proof (single_of m _ Hp Hr) as Hs. cbn iota in Hs.
      rewrite (@items_step m fuel _ _ _ _ pending p Hd Hs). exists fuel, (N.eqb c). splits; auto. apply eq_is. cbn. lia.
    - intros t1 lo t2 hi H1 H2 H fuel rest pending p Hr Hf. pose proof (range_of m rest H1 H2 H) as Hs.
      destruct (class_char_first H1) as (d & s & -> & Hd). destruct fuel as [|fuel]; [lia|]. cbn [app] in *.
      rewrite (@items_step m fuel _ _ _ _ pending p Hd Hs). exists fuel, (between lo hi). splits; auto. apply range_is. cbn. lia.
    - intros t P H fuel rest pending p Hr Hf. destruct (kind_of rest H) as (q & Hq & HQ). destruct fuel as [|fuel]; [lia|]. rewrite <- app_assoc. texts. cbn [app] in *.
      assert (c_prim (fl m) (0x5C%N :: t ++ rest) = Some (PClass q, rest)) as Hp. { cbn [class_prim]. tests. exact Hq. }
      pose proof (single_of m _ Hp Hr) as Hs. cbn iota in Hs.
      rewrite (@items_step m fuel 0x5C%N (t ++ rest) q rest pending p); auto. 2: { vm_compute. intuition congruence. }
      exists fuel, q. splits; auto. cbn. lia.
    - intros name P H fuel rest pending p Hr Hf. destruct (posix_of H) as (rs & E1 & E2). destruct fuel as [|fuel]; [lia|].
      rewrite <- !app_assoc. texts. cbn [app] in *.
      assert (parse_posix same_letter (fl m) (0x3A%N :: name ++ 0x3A%N :: 0x5D%N :: rest) =
        Some (negate false (fold_class same_letter (ignore_case m) (in_ranges rs)), rest)) as Hx.
      { apply posix_form. exists false, name, rs. auto. }
      cbn [class_items fl f_x bump_space]. tests.
      change (Flags (ignore_case m) (multi_line m) (dot_all m) (swap_greed m) (crlf m) false) with (fl m). rewrite Hx. eexists fuel, _. splits; [reflexivity|apply yes_is, fold_is; auto|cbn;lia].
    - intros name P H fuel rest pending p Hr Hf. destruct (posix_of H) as (rs & E1 & E2). destruct fuel as [|fuel]; [lia|].
      rewrite <- !app_assoc. texts. cbn [app] in *.
      assert (parse_posix same_letter (fl m) (0x3A%N :: 0x5E%N :: name ++ 0x3A%N :: 0x5D%N :: rest) =
        Some (negate true (fold_class same_letter (ignore_case m) (in_ranges rs)), rest)) as Hx.
      { apply posix_form. exists true, name, rs. auto. }
      cbn [class_items fl f_x bump_space]. tests.
      change (Flags (ignore_case m) (multi_line m) (dot_all m) (swap_greed m) (crlf m) false) with (fl m). rewrite Hx. eexists fuel, _. splits; [reflexivity|apply not_is, fold_is; auto|cbn;lia].
    - intros t P _ IH Hn fuel rest pending p Hr Hf. destruct fuel as [|fuel]; [lia|].
      destruct (IH fuel rest) as (s & neg & first & s1 & q & -> & Hs & H1 & H2 & H3); [lia|]. destruct s as [|c s]; [congruence|].
      cbn [app] in *. cbn [class_items fl f_x bump_space]. unfold C at 1 2. tests.
      change (Flags (ignore_case m) (multi_line m) (dot_all m) (swap_greed m) (crlf m) false) with (fl m).
      assert (parse_posix same_letter (fl m) (c :: s ++ rest) = None) as ->.
      { unfold parse_posix. unfold is at 1. rewrite (proj2 (N.eqb_neq c _)); auto. intros ->. now apply Hn. }
      rewrite H1, H2. rewrite fl_i. eexists fuel, _. splits; [reflexivity|exact H3|cbn;lia].
    (* several *)
    - intros t P _ IH fuel rest pending p Hr Hf. destruct (IH fuel rest pending p) as (k & q & H1 & H2 & H3); auto.
      exists k, (union p q). splits; auto. intros Q HQ. now apply or_is.
    - intros t1 P t2 Q _ IH1 HI IH2 fuel rest pending p Hr Hf. rewrite <- app_assoc in *.
      destruct (IH1 fuel (t2 ++ rest) pending p) as (k & q & H1 & H2 & H3); auto. { eapply items_Dashes; eauto. }
      destruct (IH2 k rest pending (union p q)) as (k2 & q2 & H4 & H5 & H6); auto. { rewrite app_length in Hf. lia. }
      exists k2, q2. rewrite H1, H4. splits; auto.
      + intros Q0 HQ. eapply is_ext. apply H5. apply or_is; eauto. intros c. unfold Or. tauto.
      + rewrite app_length. lia.
    (* bodies *)
    - intros t P HI IH fuel rest _ Hr Hf. destruct (items_first HI) as (d & s & -> & Hd).
      destruct (@lead_other d (s ++ rest)) as (first & E & Hfirst). { intros ->. apply Hd. vm_compute. tauto. } { intros ->. apply Hd. vm_compute. tauto. }
      cbn [app] in *. rewrite E. cbn [fst snd]. destruct (IH fuel rest None first) as (k & q & H1 & H2 & H3); auto.
      exists k, None, q. splits; auto.
      + cbn. eapply is_ext. apply (H2 (fun _ => False)). intros c. rewrite Hfirst. split; [discriminate|tauto]. intros c. unfold Or. tauto.
      + cbn. intros [= ->]. apply Hd. vm_compute. tauto.
    - intros fuel rest _ Hr Hf. change (T "]" ++ rest) with (C "]" :: rest). rewrite lead_bracket. cbn [fst snd]. exists fuel, None, (N.eqb (C "]")). splits; auto.
      apply eq_is. lia. discriminate.
    - intros t P HI IH fuel rest _ Hr Hf. rewrite <- app_assoc. change (T "]" ++ t ++ rest) with (C "]" :: t ++ rest). rewrite lead_bracket. cbn [fst snd].
      destruct (IH fuel rest None (N.eqb (C "]"))) as (k & q & H1 & H2 & H3); auto. { rewrite <- app_assoc, app_length in Hf. lia. }
      exists k, None, q. splits; auto.
      + cbn. apply H2, eq_is.
      + rewrite app_length. lia.
      + discriminate.
    - intros k fuel rest Hc Hr Hf. destruct (Hc eq_refl) as (s & ->). destruct (@lead_dashes k (C "]") s) as (first & E & Hfirst); [discriminate|].
      rewrite E. cbn [fst snd]. exists fuel, None, first. splits; auto. lia. discriminate.
    - intros k t P HI IH fuel rest _ Hr Hf. rewrite <- app_assoc in *. destruct (items_first HI) as (d & s & -> & Hd). cbn [app] in *.
      destruct (@lead_dashes k d (s ++ rest)) as (first & E & Hfirst). { intros ->. apply Hd. vm_compute. tauto. }
      rewrite E. cbn [fst snd]. destruct (IH fuel rest None first) as (k2 & q & H1 & H2 & H3); auto. { rewrite app_length in Hf. cbn in *. lia. }
      exists k2, None, q. splits; auto.
      + rewrite app_length. lia.
      + discriminate.
    - intros t1 P o op t2 Q _ IH1 Ho HI IH2 fuel rest _ Hr Hf. rewrite <- !app_assoc in *.
      destruct (operator_of Ho) as (op' & G1 & G2 & G3 & a & b & G4 & G5 & G6).
      destruct (IH1 fuel (o ++ t2 ++ rest)) as (k & pending & q & H1 & H2 & H3 & H4); auto. { discriminate. } { apply Dashes_app; auto. now subst o. }
      rewrite H1. assert (length o = 2) as Hl by now subst o. rewrite !app_length in Hf. destruct k as [|k]; [lia|].
      rewrite (@items_op m k o op' a b); auto.
      destruct (IH2 k rest (Some (close_op same_letter (fl m) pending q, op')) (fun _ => false)) as (k2 & q2 & H5 & H6 & H7); auto. { rewrite app_length. lia. }
      exists k2, (Some (close_op same_letter (fl m) pending q, op')), q2. splits; auto.
      + cbn [close_op]. rewrite fl_i. apply G2; apply fold_is; auto. eapply is_ext. apply (H6 (fun _ => False)). intros c; split; [discriminate|tauto]. intros c. unfold Or. tauto.
      + rewrite !app_length. lia.
    - intros t P HI IH fuel rest Hc Hr Hf. destruct (Hc eq_refl) as (s' & ->). rewrite <- app_assoc in *. destruct (items_first HI) as (d & s & -> & Hd).
      change (T "-" ++ C "]" :: s') with (C "-" :: C "]" :: s') in *.
      destruct (@lead_other d (s ++ C "-" :: C "]" :: s')) as (first & E & Hfirst). { intros ->. apply Hd. vm_compute. tauto. } { intros ->. apply Hd. vm_compute. tauto. }
      cbn [app] in *. rewrite E. cbn [fst snd]. destruct (IH fuel (C "-" :: C "]" :: s') None first) as (k & q & H1 & H2 & H3); auto.
      { split; [discriminate|]. intros x Ex. inversion Ex. eexists _, _. split; [reflexivity|auto]. }
      rewrite H1. cbn [List.length] in Hf. rewrite app_length in Hf. cbn [List.length] in *. destruct k as [|k]; [lia|]. rewrite dash_step.
      exists k, None, (union q (N.eqb (C "-"))). splits; auto.
      + cbn. apply or_is; [|apply eq_is]. eapply is_ext. apply (H2 (fun _ => False)). intros c. rewrite Hfirst. split; [discriminate|tauto]. intros c. unfold Or. tauto.
      + rewrite app_length. change (length (T "-")) with 1. lia.
      + cbn. intros [= ->]. apply Hd. vm_compute. tauto.
    - intros t1 P o op t2 Q _ IH1 Ho HI IH2 fuel rest Hc Hr Hf. destruct (Hc eq_refl) as (s' & ->). rewrite <- !app_assoc in *.
      change (T "-" ++ C "]" :: s') with (C "-" :: C "]" :: s') in *.
      destruct (operator_of Ho) as (op' & G1 & G2 & G3 & a & b & G4 & G5 & G6).
      destruct (IH1 fuel (o ++ t2 ++ C "-" :: C "]" :: s')) as (k & pending & q & H1 & H2 & H3 & H4); auto. { discriminate. } { apply Dashes_app; auto. now subst o. }
      rewrite H1. assert (length o = 2) as Hl by now subst o. rewrite !app_length in Hf. cbn [List.length] in Hf. destruct k as [|k]; [lia|].
      rewrite (@items_op m k o op' a b); auto.
      destruct (IH2 k (C "-" :: C "]" :: s') (Some (close_op same_letter (fl m) pending q, op')) (fun _ => false)) as (k2 & q2 & H5 & H6 & H7); auto.
      { split; [discriminate|]. intros x Ex. inversion Ex. eexists _, _. split; [reflexivity|auto]. } { rewrite app_length. cbn. lia. }
      rewrite H5. destruct k2 as [|k2]; [lia|]. rewrite dash_step.
      exists k2, (Some (close_op same_letter (fl m) pending q, op')), (union q2 (N.eqb (C "-"))). splits; auto.
      + cbn [close_op]. rewrite fl_i. apply G2; apply fold_is; auto. apply or_is; [|apply eq_is]. eapply is_ext. apply (H6 (fun _ => False)). intros c; split; [discriminate|tauto]. intros c. unfold Or. tauto.
      + rewrite !app_length. change (length (T "-")) with 1. lia.
    (* classes *)
    - intros closed t P _ IH fuel rest Hf. rewrite <- !app_assoc in Hf. change (T "[" ++ t ++ T "]" ++ rest) with (C "[" :: t ++ C "]" :: rest) in Hf. cbn [List.length] in Hf.
      destruct (IH fuel (C "]" :: rest)) as (k & pending & q & H1 & H2 & H3 & H4); auto. { eauto. } { apply Dashes_other. discriminate. }
      rewrite app_length in Hf. cbn [List.length] in Hf. destruct k as [|k]; [lia|].
      exists (t ++ [C "]"]), false, (fst (lead (t ++ C "]" :: rest))), (snd (lead (t ++ C "]" :: rest))), (close_op same_letter (fl m) pending q). splits.
      + reflexivity.
      + destruct t; discriminate.
      + rewrite <- app_assoc. now apply open_any.
      + rewrite H1. apply items_bracket.
      + apply yes_is, fold_is. exact H2.
    - intros closed t P _ IH fuel rest Hf. rewrite <- !app_assoc in Hf. change (T "[^" ++ t ++ T "]" ++ rest) with (C "[" :: C "^" :: t ++ C "]" :: rest) in Hf. cbn [List.length] in Hf.
      destruct (IH fuel (C "]" :: rest)) as (k & pending & q & H1 & H2 & H3 & H4); auto. { eauto. } { apply Dashes_other. discriminate. } { lia. }
      rewrite app_length in Hf. cbn [List.length] in Hf. destruct k as [|k]; [lia|].
      exists (C "^" :: t ++ [C "]"]), true, (fst (lead (t ++ C "]" :: rest))), (snd (lead (t ++ C "]" :: rest))), (close_op same_letter (fl m) pending q). splits.
      + reflexivity.
      + discriminate.
      + cbn [app]. rewrite <- app_assoc. apply open_no.
      + rewrite H1. apply items_bracket.
      + apply not_is, fold_is. exact H2.
  Qed.

  Lemma class_atom m t P rest : class m t P -> exists s q, t = C "[" :: s /\ p_class (fl m) (s ++ rest) = Some (One q, rest) /\ Is q P.
  Proof.
    intros H. destruct (proj2 (proj2 (proj2 (class_of m))) _ _ H (length (t ++ rest)) rest) as (s & neg & first & s1 & q & -> & _ & H1 & H2 & H3); auto.
    eexists s, _. splits; [reflexivity| |exact H3]. unfold parse_class. rewrite H1. cbn [app List.length] in H2. rewrite H2. reflexivity.
  Qed.

  (** ** Flags *)
  Definition set_all (on : bool) (l : list N) (f : flags) : flags := fold_left (fun f c => match set_flag c on f with Some f' => f' | None => f end) l f.
  Definition letter (c : N) : Prop := In c [C "i"; C "m"; C "s"; C "U"; C "R"].
  Lemma set_letter c on f : letter c -> exists f', set_flag c on f = Some f'.
  Proof. intros [<-|[<-|[<-|[<-|[<-|[]]]]]]; eexists; reflexivity. Qed.
  Lemma letter_not c : letter c -> is ":" c = false /\ is ")" c = false /\ is "-" c = false.
  Proof. intros [<-|[<-|[<-|[<-|[<-|[]]]]]]; splits; reflexivity. Qed.
  Lemma existsb_eqb c l : existsb (N.eqb c) l = true <-> In c l.
  Proof. rewrite existsb_exists. split. intros (x & H & E). apply N.eqb_eq in E. now subst. intros H. exists c. split; auto. apply N.eqb_refl. Qed.
  Lemma flags_loop on l : forall f seen s, NoDup (l ++ seen) -> Forall letter l ->
    parse_flags (l ++ s) f on seen = parse_flags s (set_all on l f) on (rev l ++ seen).
  Proof.
    induction l as [|c l IH]; intros f seen s Hn Hl; auto. inversion Hl; subst. inversion Hn; subst.
    cbn [app parse_flags]. destruct (letter_not H1) as (-> & -> & ->). cbn [orb].
    destruct (existsb (N.eqb c) seen) eqn:E. { exfalso. apply existsb_eqb in E. apply H3. apply in_or_app. auto. }
    destruct (set_letter on f H1) as (f' & Ef). rewrite Ef. rewrite IH; auto.
    - unfold set_all. cbn [fold_left]. rewrite Ef. cbn [rev]. now rewrite <- app_assoc.
    - apply (@Permutation_NoDup _ (c :: l ++ seen)); auto. apply Permutation_middle.
  Qed.
  Lemma set_all_of on l : Forall letter l -> forall f, set_all on l f =
    Flags (if existsb (N.eqb (C "i")) l then on else f_i f) (if existsb (N.eqb (C "m")) l then on else f_m f) (if existsb (N.eqb (C "s")) l then on else f_s f)
      (if existsb (N.eqb (C "U")) l then on else f_U f) (if existsb (N.eqb (C "R")) l then on else f_R f) (f_x f).
  Proof.
    induction 1 as [|c l Hc Hl IH]; intros f. { destruct f; reflexivity. }
    unfold set_all in *. cbn [fold_left]. rewrite IH. destruct f as [i m s U R x].
    destruct Hc as [<-|[<-|[<-|[<-|[<-|[]]]]]]; cbn; repeat match goal with |- context [existsb ?p l] => destruct (existsb p l) end; reflexivity.
  Qed.
  Lemma flags_dash s f on seen : parse_flags (C "-" :: s) f on seen = if existsb (N.eqb (C "-")) seen then None else parse_flags s f false (C "-" :: seen).
  Proof. reflexivity. Qed.
  Lemma switch_of t m m1 (sep : N) rest : Switch t m m1 -> sep = C ":" \/ sep = C ")" /\ t <> [] ->
    parse_flags (t ++ sep :: rest) (fl m) true [] = Some (is ":" sep, fl m1, rest).
  Proof.
    intros [on off m0 Hn Hl] Hs.
    assert (Forall letter on) as Hon. { apply Forall_forall. intros c H. apply Hl. apply in_or_app; auto. }
    assert (Forall letter off) as Hoff. { apply Forall_forall. intros c H. apply Hl. apply in_or_app; auto. }
    assert (forall c, In c on -> ~ In c off) as Hd. { intros c H1 H2. clear - Hn H1 H2. induction on as [|x on IH]; [easy|]. cbn in Hn. inversion Hn; subst.
      destruct H1 as [->|H1]. apply H3, in_or_app; auto. auto. }
    assert (set_all false off (set_all true on (fl m0)) = fl (Mode (switched on off "i" (ignore_case m0)) (switched on off "m" (multi_line m0)) (switched on off "s" (dot_all m0))
            (switched on off "U" (swap_greed m0)) (switched on off "R" (crlf m0)))) as HE.
    { rewrite !set_all_of by auto. unfold fl. cbn [f_i f_m f_s f_U f_R f_x ignore_case multi_line dot_all swap_greed crlf].
      assert (forall b old, (if existsb (N.eqb (C b)) off then false else if existsb (N.eqb (C b)) on then true else old) = switched on off b old) as HX.
      { intros b old. unfold switched. change (bN b) with (C b). destruct (existsb (N.eqb (C b)) on) eqn:E1; auto. destruct (existsb (N.eqb (C b)) off) eqn:E2; auto.
        exfalso. apply existsb_eqb in E1, E2. eapply Hd; eauto. }
      now rewrite !HX. }
    rewrite <- app_assoc. rewrite flags_loop by (rewrite ?app_nil_r; auto; eapply NoDup_left; eauto). rewrite app_nil_r.
    assert (forall f on0 seen, (exists d l, seen = d :: l /\ letter d) \/ seen = [] /\ sep = C ":" -> parse_flags (sep :: rest) f on0 seen = Some (is ":" sep, f, rest)) as HL.
    { intros f on0 seen [(d & l & -> & Hdl)|[-> ->]].
      - cbn [parse_flags]. destruct (letter_not Hdl) as (_ & _ & ->). destruct Hs as [-> |[-> _]]; reflexivity.
      - reflexivity. }
    destruct off as [|o off].
    - cbn [app]. rewrite <- HE. cbn [set_all fold_left]. apply HL. destruct on as [|c on] using rev_ind.
      + right. split; auto. destruct Hs as [->|[_ Hs]]; auto. now destruct Hs.
      + left. rewrite rev_app_distr. cbn. eexists _, _. split; [reflexivity|]. apply Forall_app in Hon. destruct Hon as [_ Hon]. now inversion Hon.
    - change (T "-") with [C "-"]. cbn [app]. rewrite flags_dash.
      destruct (existsb (N.eqb (C "-")) (rev on)) eqn:E. { exfalso. apply existsb_eqb, in_rev in E. rewrite Forall_forall in Hon. apply Hon in E. revert E. vm_compute. intuition congruence. }
      change (o :: off ++ sep :: rest) with ((o :: off) ++ sep :: rest). rewrite flags_loop; auto.
      2: { apply (@Permutation_NoDup _ (C "-" :: on ++ o :: off)).
           - transitivity ((C "-" :: rev on) ++ o :: off); [cbn [app]; apply perm_skip; apply Permutation_app_tail, Permutation_rev|apply Permutation_app_comm].
           - constructor; auto. intros H. apply in_app_or in H. rewrite Forall_forall in Hon, Hoff. destruct H as [H|H]; [apply Hon in H|apply Hoff in H]; revert H; vm_compute; intuition congruence. }
      rewrite <- HE. apply HL. left. destruct off as [|c off] using rev_ind.
      + cbn. eexists _, _. split; [reflexivity|]. now inversion Hoff.
      + cbn [rev]. rewrite rev_app_distr. cbn. eexists _, _. split; [reflexivity|]. inversion Hoff; subst. apply Forall_app in H2. destruct H2 as [_ H2]. now inversion H2.
  Qed.

  (** ** Repetitions *)
  Lemma digit_white d x : Digit d x -> (x < 10)%N -> white_space d = false.
  Proof.
    intros H Hx. assert (d = 0x30 + x)%N as -> by (destruct H as [[-> _]|[H _]]; lia).
    destruct (white_space (0x30 + x)) eqn:E; auto. apply space_is in E. cbn [spaces In] in E. lia.
  Qed.
  Lemma decimal_of ds n c rest : ds <> [] -> Numeral 10 ds n -> (n < 2 ^ 32)%N -> c = C "," \/ c = C "}" ->
    parse_decimal false (ds ++ c :: rest) = Some (N.to_nat n, c :: rest).
  Proof.
    intros Hne H Hn Hc. unfold parse_decimal. destruct (numeral_first H Hne) as (d & x & ds' & E & Hd & Hx).
    assert (skip_white (ds ++ c :: rest) = ds ++ c :: rest) as ->. { rewrite E. cbn [app skip_white]. now rewrite (digit_white Hd Hx). }
    assert (length (ds ++ c :: rest) = length ds + S (length rest)) as -> by (rewrite app_length; cbn; lia).
    rewrite (digits_loop_of H). cbn [digits_loop]. assert (between 0x30 0x39 c = false) as -> by (destruct Hc as [->| ->]; reflexivity).
    cbn [Nat.add]. rewrite N.mul_0_r, N.add_0_l. rewrite E. cbn [List.length Nat.eqb orb]. rewrite (proj2 (N.leb_gt _ _) Hn).
    cbn [List.length skip_white_x]. assert (white_space c = false) as -> by (destruct Hc as [->| ->]; reflexivity). reflexivity.
  Qed.
  Lemma count_of t min max : Count t min max -> exists c s, t = c :: s /\ In c (T "?*+{") /\
    forall m fuel names rest alts cat r, p_loop (S fuel) (fl m) names (t ++ rest) alts (Some r :: cat) =
      let '(greedy, s'') := parse_greedy rest in p_loop fuel (fl m) names s'' alts (Some (Rep min max (xorb (swap_greed m) greedy) r) :: cat).
  Proof.
    intros [| | |ds n H1 H2 H3|ds n H1 H2 H3|ds n es k H1 H2 H3 H4 H5].
    1-3: eexists _, _; split; [reflexivity|]; split; [vm_compute; tauto|]; reflexivity.
    - eexists _, _. split; [reflexivity|]. split; [vm_compute; tauto|]. intros m fuel names rest alts cat r. rewrite <- !app_assoc.
      change (T "{" ++ ds ++ T "}" ++ rest) with (C "{" :: ds ++ C "}" :: rest). cbn [parse_loop]. change (f_x (fl m)) with false. cbn [bump_space]. unfold C at 1 2 3 4 5 6 7 8. tests.
      unfold parse_counts. cbn [bump_space]. rewrite (@decimal_of ds n (C "}")) by auto. unfold C. tests. reflexivity.
    - eexists _, _. split; [reflexivity|]. split; [vm_compute; tauto|]. intros m fuel names rest alts cat r. rewrite <- !app_assoc.
      change (T "{" ++ ds ++ T ",}" ++ rest) with (C "{" :: ds ++ C "," :: C "}" :: rest). cbn [parse_loop]. change (f_x (fl m)) with false. cbn [bump_space]. unfold C at 1 2 3 4 5 6 7 8. tests.
      unfold parse_counts. cbn [bump_space]. rewrite (@decimal_of ds n (C ",")) by auto. unfold C. tests. reflexivity.
    - eexists _, _. split; [reflexivity|]. split; [vm_compute; tauto|]. intros m fuel names rest alts cat r. rewrite <- !app_assoc.
      change (T "{" ++ ds ++ T "," ++ es ++ T "}" ++ rest) with (C "{" :: ds ++ C "," :: es ++ C "}" :: rest).
      cbn [parse_loop]. change (f_x (fl m)) with false. cbn [bump_space]. unfold C at 1 2 3 4 5 6 7 8. tests.
      unfold parse_counts. cbn [bump_space]. rewrite (@decimal_of ds n (C ",")) by (auto; lia). unfold C at 1 2. tests. cbn [bump_space].
      destruct (numeral_first H4 H3) as (d & x & ds' & E & Hd & Hx). pose proof (@decimal_of es k (C "}") rest H3 H4 (proj2 H5) (or_intror eq_refl)) as HD.
      rewrite E in *. cbn [app] in *.
      assert (is "}" d = false) as ->. { unfold is. apply N.eqb_neq. apply digit_range in Hd. change (bN "}") with 0x7D%N. lia. }
      rewrite HD. unfold C. tests. rewrite (proj2 (Nat.leb_le (N.to_nat n) (N.to_nat k))) by lia. cbn [andb bump_space]. reflexivity.
  Qed.

  (** ** Names *)
  Lemma name_of name rest : Group_name alphabetic alphanumeric name -> parse_name alphabetic alphanumeric true (name ++ C ">" :: rest) = Some (name, rest).
  Proof.
    intros [H1 H2]. destruct name as [|c cs]; [contradiction|]. destruct H1 as [Hc Hcs]. inversion H2; subst.
    assert (forall l, Forall (fun c => In c (T "_.[]") \/ alphanumeric c = true) l -> Forall (fun c => ~ In c (T ">=!")) l ->
      parse_name alphabetic alphanumeric false (l ++ C ">" :: rest) = Some (l, rest)) as HX.
    { induction l as [|x l IH]; intros G1 G2. { reflexivity. } inversion G1; subst. inversion G2; subst. cbn [app parse_name].
      rewrite (@is_in ">" x ">=!") by (auto; cbn; tauto).
      assert (name_char alphabetic alphanumeric false x = true) as ->.
      { unfold name_char. destruct H4 as [H4| ->]; [|now rewrite !Bool.orb_true_r].
        destruct H4 as [<-|[<-|[<-|[<-|[]]]]]; reflexivity. }
      now rewrite IH. }
    cbn [app parse_name]. rewrite (@is_in ">" c ">=!") by (auto; cbn; tauto).
    assert (name_char alphabetic alphanumeric true c = true) as ->.
    { unfold name_char. destruct Hc as [->| ->]; [reflexivity|apply Bool.orb_true_r]. }
    now rewrite HX.
  Qed.

  (** ** Expressions *)
  Notation atom := (Atom same_letter unicode_digit unicode_word unicode_class alphabetic alphanumeric).
  Notation piece := (Piece same_letter unicode_digit unicode_word unicode_class alphabetic alphanumeric).
  Notation branch := (Branch same_letter unicode_digit unicode_word unicode_class alphabetic alphanumeric).
  Notation alternatives := (Alts same_letter unicode_digit unicode_word unicode_class alphabetic alphanumeric).
  Lemma atom_first m t r ns : atom m t r ns -> exists c s, t = c :: s /\ ~ In c (T "?*+{|)").
  Proof.
    intros [c p H _|t0 c p _ _|t0 P p _ _|t0 P f _ _|p _|f _|f _|t0 P p H _|t0 r0 m' ns0 _|fl0 m1 t0 r0 m' ns0 _ _|o name t0 r0 m' ns0 H _ _].
    - exists c, []. split; auto. intros G. apply H. texts. cbn in *. tauto.
    - eexists _, _. split; [reflexivity|]. vm_compute. intuition congruence.
    - eexists _, _. split; [reflexivity|]. vm_compute. intuition congruence.
    - eexists _, _. split; [reflexivity|]. vm_compute. intuition congruence.
    - eexists _, _. split; [reflexivity|]. vm_compute. intuition congruence.
    - eexists _, _. split; [reflexivity|]. vm_compute. intuition congruence.
    - eexists _, _. split; [reflexivity|]. vm_compute. intuition congruence.
    - destruct (class_first H) as (s & ->). eexists _, _. split; [reflexivity|]. vm_compute. intuition congruence.
    - eexists _, _. split; [reflexivity|]. vm_compute. intuition congruence.
    - eexists _, _. split; [reflexivity|]. vm_compute. intuition congruence.
    - destruct H as [<-|[<-|[]]]; (eexists _, _; split; [reflexivity|]; vm_compute; intuition congruence).
  Qed.
  Lemma piece_first m o t r ns : piece m o t r ns -> exists c s, t = c :: s /\ ~ In c (T "?*+{|)").
  Proof.
    induction 1; [eapply atom_first; eauto|]. destruct IHPiece as (c & s & -> & Hc). cbn [app]. eauto.
  Qed.
  Lemma branch_first m t r m' ns : branch m t r m' ns -> t = [] \/ exists c s, t = c :: s /\ ~ In c (T "?*+{|)").
  Proof.
    intros [|fl0 m1 t0 r0 m0 ns0 _ _ _|o t1 r1 ns1 t2 r2 m0 ns2 H _]; auto; right.
    - eexists _, _. split; [reflexivity|]. vm_compute. intuition congruence.
    - destruct (piece_first H) as (c & s & -> & Hc). cbn [app]. eauto.
  Qed.
  Lemma alts_first m t r m' ns : alternatives m t r m' ns -> t = [] \/ exists c s, t = c :: s /\ ~ In c (T "?*+{").
  Proof.
    assert (forall c, ~ In c (T "?*+{|)") -> ~ In c (T "?*+{")) as HX. { intros c H G. apply H. texts. cbn in *. tauto. }
    intros [t0 r0 m0 ns0 H|t1 r1 m1 ns1 t2 r2 m2 ns2 H _]; destruct (branch_first H) as [->|(c & s & -> & Hc)]; auto; right.
    - exists c, s. auto.
    - eexists _, _. split; [reflexivity|]. vm_compute. intuition congruence.
    - cbn [app]. eexists _, _. split; [reflexivity|]. auto.
  Qed.
  (** What may come after a branch. *)
  Definition Stop (rest : list N) : Prop := rest = [] \/ exists c s, rest = c :: s /\ In c (T "|)(\").
  Lemma branch_rest m t r m' ns rest : branch m t r m' ns -> Stop rest -> Braces (t ++ rest) /\ hd_error (t ++ rest) <> Some (C "?").
  Proof.
    intros H Hs. destruct (branch_first H) as [->|(c & s & -> & Hc)]; cbn [app].
    - destruct Hs as [->|(c & s & -> & Hc)]; [split; [intros s E; discriminate E|discriminate]|].
      split. intros s' E. exfalso. inversion E; subst. revert Hc. vm_compute. intuition discriminate. cbn. intros [= ->]. revert Hc. vm_compute. intuition discriminate.
    - split. intros s' E. exfalso. inversion E; subst. apply Hc. vm_compute. tauto. cbn. intros [= ->]. apply Hc. vm_compute. tauto.
  Qed.
  Lemma count_brace t min max rest : Count t min max -> Braces (t ++ rest).
  Proof.
    intros H s E. assert (forall ds n, ds <> [] -> Numeral 10 ds n -> exists d ds', ds = d :: ds' /\ (0x30 <= d <= 0x39)%N) as HX.
    { intros ds n H1 H2. destruct (numeral_first H2 H1) as (d & x & ds' & -> & Hd & Hx). exists d, ds'. split; auto. destruct Hd as [[-> Hd]|[Hd _]]; lia. }
    destruct H as [| | |ds n H1 H2 H3|ds n H1 H2 H3|ds n es k H1 H2 H3 H4 H5]; try discriminate E;
      destruct (HX ds n H1 H2) as (d & ds' & -> & Hd); inversion E; eexists _, _; (split; [reflexivity|auto]).
  Qed.
  Lemma cat_of_snoc l x : cat_of (l ++ [x]) = match x, cat_of l with None, r => r | Some a, Empty => a | Some a, r => Cat a r end.
  Proof. unfold cat_of. rewrite fold_left_app. cbn. destruct x; [destruct (fold_left _ l Empty)|]; reflexivity. Qed.

  Lemma names_left (a b names : list (list N)) : NoDup ((a ++ b) ++ names) -> NoDup (a ++ names) /\ NoDup (b ++ rev a ++ names).
  Proof.
    intros H. split.
    - apply (@Permutation_NoDup _ ((a ++ b) ++ names) (b ++ a ++ names)) in H.
      2: { rewrite app_assoc. apply Permutation_app_tail, Permutation_app_comm. }
      clear - H. induction b as [|x b IH]; auto. inversion H; auto.
    - apply (@Permutation_NoDup _ ((a ++ b) ++ names)); auto. rewrite (app_assoc b). apply Permutation_app_tail.
      rewrite Permutation_app_comm. apply Permutation_app_head, Permutation_rev.
  Qed.
  Lemma fresh_name (n : list N) names : ~ In n names -> existsb (chars_eqb n) names = false.
  Proof. intros H. destruct (existsb (chars_eqb n) names) eqn:E; auto. apply existsb_exists in E. destruct E as (x & Hx & E). apply chars_eqb_eq in E. now subst. Qed.
  Lemma starts_is m f : At f (Starts m) -> forall w i, (if multi_line m then line_start (crlf m) else text_start) w i = f w i.
  Proof.
    intros H w i. apply Bool.eq_iff_eq_true. rewrite (H w i). unfold Starts.
    assert (true = true) as HT by reflexivity. assert (false <> true) as HF by discriminate.
    assert (Is (is x0a) (eq SpecSyntax.LF)) as HL. { intros c. unfold is. rewrite N.eqb_eq. unfold SpecSyntax.LF. change (bN x0a) with 10%N. split; congruence. }
    assert (Is (is x0d) (eq SpecSyntax.CR)) as HC. { intros c. unfold is. rewrite N.eqb_eq. unfold SpecSyntax.CR. change (bN x0d) with 13%N. split; congruence. }
    pose proof (before_is w i HL) as H1. pose proof (before_is w i HC) as H2. pose proof (after_is w i HL) as H3.
    destruct (multi_line m); unfold line_start, text_start, Regex.LF, Regex.CR.
    - rewrite <- H1, <- H2, <- H3. pose proof (Nat.eqb_eq i 0) as H0. destruct (i =? 0), (before (is x0a) w i), (before (is x0d) w i), (after (is x0a) w i), (crlf m); cbn; clear - HT HF H0; tauto.
    - rewrite Nat.eqb_eq. intuition congruence.
  Qed.
  Lemma ends_is m f : At f (Ends m) -> forall w i, (if multi_line m then line_end (crlf m) else text_end) w i = f w i.
  Proof.
    intros H w i. apply Bool.eq_iff_eq_true. rewrite (H w i). unfold Ends.
    assert (true = true) as HT by reflexivity. assert (false <> true) as HF by discriminate.
    assert (Is (is x0a) (eq SpecSyntax.LF)) as HL. { intros c. unfold is. rewrite N.eqb_eq. unfold SpecSyntax.LF. change (bN x0a) with 10%N. split; congruence. }
    assert (Is (is x0d) (eq SpecSyntax.CR)) as HC. { intros c. unfold is. rewrite N.eqb_eq. unfold SpecSyntax.CR. change (bN x0d) with 13%N. split; congruence. }
    pose proof (after_is w i HL) as H1. pose proof (before_is w i HC) as H2. pose proof (after_is w i HC) as H3.
    destruct (multi_line m); unfold line_end, text_end, Regex.LF, Regex.CR.
    - rewrite <- H1, <- H2, <- H3. pose proof (Nat.eqb_eq i (length w)) as H0.
      destruct (i =? length w), (after (is x0a) w i), (before (is x0d) w i), (after (is x0d) w i), (crlf m); cbn; clear - HT HF H0; tauto.
    - rewrite Nat.eqb_eq. intuition congruence.
  Qed.
  Lemma any_is m : Is (fun c => if dot_all m then true else if crlf m then negb (is Regex.LF c || is Regex.CR c) else negb (is Regex.LF c)) (Any m).
  Proof. clear same_letter unicode_digit unicode_word unicode_class alphabetic alphanumeric.
    intros c. unfold Any, is, SpecSyntax.LF, SpecSyntax.CR, Regex.LF, Regex.CR. change (bN x0a) with 10%N. change (bN x0d) with 13%N.
    pose proof (N.eqb_eq c 10). pose proof (N.eqb_eq c 13). destruct (dot_all m), (crlf m), (c =? 10)%N, (c =? 13)%N; cbn; intuition congruence.
  Qed.
  Lemma group_of m s f' ns1 names fuel alts cat rest s1 r' ns2 :
    open_group alphabetic alphanumeric (fl m) names s = Some (Group f' ns1, s1) -> p_loop fuel f' ns1 s1 [] [] = Some (r', C ")" :: rest, ns2) ->
    p_loop (S fuel) (fl m) names (C "(" :: s) alts cat = p_loop fuel (fl m) ns2 rest alts (Some r' :: cat).
  Proof. intros H1 H2. cbn [parse_loop]. change (f_x (fl m)) with false. cbn [bump_space]. unfold C at 1 2 3. tests. now rewrite H1, H2. Qed.
  Lemma flags_group m m1 names t rest : Switch t m m1 -> open_group alphabetic alphanumeric (fl m) names (C "?" :: t ++ C ":" :: rest) = Some (Group (fl m1) names, rest).
  Proof.
    intros H. pose proof (switch_of rest H (or_introl eq_refl)) as HX. change (is ":" (C ":")) with true in HX.
    assert (forall c, hd_error t = Some c -> is "P" c = false /\ is "<" c = false) as Hf.
    { intros c Hc. destruct H as [on off m0 _ Hl]. assert (letter c \/ c = C "-") as HL.
      { destruct on as [|x on]. destruct off as [|x off]; [discriminate|]. injection Hc as <-. auto. injection Hc as <-. left. apply Hl. left. reflexivity. }
      destruct HL as [HL | ->]; [|split; reflexivity]. destruct HL as [<-|[<-|[<-|[<-|[<-|[]]]]]]; split; reflexivity. }
    unfold open_group. change (f_x (fl m)) with false. cbn [bump_space]. unfold C at 1. tests.
    destruct t as [|a t]; cbn [app] in *.
    - destruct rest as [|b rest]; [now rewrite HX|]. unfold C at 1 2. tests. cbn [andb]. now rewrite HX.
    - destruct (Hf a eq_refl) as (G1 & G2). destruct (t ++ C ":" :: rest) as [|b l] eqn:El. now destruct t. rewrite G1, G2. cbn [andb]. now rewrite HX.
  Qed.
  Lemma flags_change m m1 names t rest : Switch t m m1 -> t <> [] -> open_group alphabetic alphanumeric (fl m) names (C "?" :: t ++ C ")" :: rest) = Some (Change (fl m1), rest).
  Proof.
    intros H Hne. pose proof (switch_of rest H (or_intror (conj eq_refl Hne))) as HX. change (is ":" (C ")")) with false in HX.
    assert (forall c, hd_error t = Some c -> is "P" c = false /\ is "<" c = false) as Hf.
    { intros c Hc. destruct H as [on off m0 _ Hl]. assert (letter c \/ c = C "-") as HL.
      { destruct on as [|x on]. destruct off as [|x off]; [discriminate|]. injection Hc as <-. auto. injection Hc as <-. left. apply Hl. left. reflexivity. }
      destruct HL as [HL | ->]; [|split; reflexivity]. destruct HL as [<-|[<-|[<-|[<-|[<-|[]]]]]]; split; reflexivity. }
    unfold open_group. change (f_x (fl m)) with false. cbn [bump_space]. unfold C at 1. tests.
    destruct t as [|a t]; [congruence|]; cbn [app] in *.
    destruct (Hf a eq_refl) as (G1 & G2). destruct (t ++ C ")" :: rest) as [|b l] eqn:El. now destruct t. rewrite G1, G2. cbn [andb]. now rewrite HX.
  Qed.

  (** What reading each form comes to; [fuel] is never used up. *)
  Definition Atom_read m t r ns : Prop := forall fuel names rest alts cat, NoDup (ns ++ names) -> Braces rest -> length (t ++ rest) < fuel ->
    exists k r', p_loop fuel (fl m) names (t ++ rest) alts cat = p_loop k (fl m) (rev ns ++ names) rest alts (Some r' :: cat) /\ Same r' r /\ fuel <= k + length t.
  Definition Piece_read m (o : bool) t r ns : Prop := forall fuel names rest alts cat, NoDup (ns ++ names) -> Braces rest ->
    (o = true -> hd_error rest <> Some (C "?")) -> length (t ++ rest) < fuel ->
    exists k r', p_loop fuel (fl m) names (t ++ rest) alts cat = p_loop k (fl m) (rev ns ++ names) rest alts (Some r' :: cat) /\ Same r' r /\ fuel <= k + length t.
  Definition Branch_read m t r m' ns : Prop := forall fuel names rest alts cat, NoDup (ns ++ names) -> Stop rest -> length (t ++ rest) < fuel ->
    exists k its, p_loop fuel (fl m) names (t ++ rest) alts cat = p_loop k (fl m') (rev ns ++ names) rest alts (rev its ++ cat) /\
      Same (cat_of (rev its)) r /\ fuel <= k + length t.
  Definition Alts_read m t r (m' : mode) ns : Prop := forall fuel names rest alts, NoDup (ns ++ names) -> (rest = [] \/ exists s, rest = C ")" :: s) ->
    length (t ++ rest) < fuel -> exists r', p_loop fuel (fl m) names (t ++ rest) alts [] = Some (alt_of alts r', rest, rev ns ++ names) /\ Same r' r.

  Lemma loop_escape m t p rest : p_escape (fl m) (t ++ rest) = Some (p, rest) -> forall fuel names alts cat,
    p_loop (S fuel) (fl m) names ((T "\" ++ t) ++ rest) alts cat = p_loop fuel (fl m) names rest alts (Some (re_of same_letter (fl m) p) :: cat).
  Proof.
    intros H fuel names alts cat. change ((T "\" ++ t) ++ rest) with (C "\" :: t ++ rest). cbn [parse_loop].
    change (f_x (fl m)) with false. cbn [bump_space]. unfold C. tests. now rewrite H.
  Qed.
  Lemma loop_char m c rest : ~ In c (T "\.+*?()|[{^$") -> forall fuel names alts cat,
    p_loop (S fuel) (fl m) names (c :: rest) alts cat = p_loop fuel (fl m) names rest alts (Some (char_re same_letter (fl m) c) :: cat).
  Proof.
    intros H fuel names alts cat. cbn [parse_loop]. change (f_x (fl m)) with false. cbn [bump_space].
    repeat match goal with |- context [is ?b c] => rewrite (@is_in b c _ H) by (cbn; tauto) end. reflexivity.
  Qed.
  Lemma loop_class m s q rest : p_class (fl m) (s ++ rest) = Some (One q, rest) -> forall fuel names alts cat,
    p_loop (S fuel) (fl m) names ((C "[" :: s) ++ rest) alts cat = p_loop fuel (fl m) names rest alts (Some (One q) :: cat).
  Proof.
    intros H fuel names alts cat. cbn [app parse_loop]. change (f_x (fl m)) with false. cbn [bump_space]. unfold C. tests. now rewrite H.
  Qed.
  Lemma loop_change m m1 t rest : Switch t m m1 -> t <> [] -> forall fuel names alts cat,
    p_loop (S fuel) (fl m) names (C "(" :: C "?" :: t ++ C ")" :: rest) alts cat = p_loop fuel (fl m1) names rest alts (None :: cat).
  Proof.
    intros H Hne fuel names alts cat. cbn [parse_loop]. change (f_x (fl m)) with false. cbn [bump_space]. unfold C at 1 2 3. tests.
    now rewrite (flags_change names rest H Hne).
  Qed.
  Lemma loop_or m rest : forall fuel names alts cat,
    p_loop (S fuel) (fl m) names (C "|" :: rest) alts cat = p_loop fuel (fl m) names rest (cat_of cat :: alts) [].
  Proof. reflexivity. Qed.
  Lemma loop_stop m rest : (rest = [] \/ exists s, rest = C ")" :: s) -> forall fuel names alts cat,
    p_loop (S fuel) (fl m) names rest alts cat = Some (alt_of alts (cat_of cat), rest, names).
  Proof. intros [->|(s & ->)] fuel names alts cat; reflexivity. Qed.

  Lemma named_group m names o name t rest : In o [T "(?P<"; T "(?<"] -> Group_name alphabetic alphanumeric name -> ~ In name names ->
    exists s, o ++ name ++ T ">" ++ t ++ rest = C "(" :: s /\ open_group alphabetic alphanumeric (fl m) names s = Some (Group (fl m) (name :: names), t ++ rest).
  Proof.
    intros Ho Hn Hf. pose proof (name_of (t ++ rest) Hn) as HN. pose proof (@fresh_name _ _ Hf) as HF.
    destruct name as [|c cs]; [destruct Hn as [[] _]|]. destruct Hn as [_ Hn]. inversion Hn; subst.
    assert (is "=" c = false) as E1 by (apply (@is_in "=" c ">=!"); auto; cbn; tauto).
    assert (is "!" c = false) as E2 by (apply (@is_in "!" c ">=!"); auto; cbn; tauto).
    destruct Ho as [<-|[<-|[]]]; (eexists; split; [reflexivity|]); unfold open_group; change (f_x (fl m)) with false; cbn [bump_space].
    - cbn [app]. change (is "?" (bN "?")) with true. cbn iota.
      change (is "P" (bN "P") && is "<" (bN "<")) with true. cbn iota. unfold parse_named. change (bN ">" :: t ++ rest) with (C ">" :: t ++ rest).
      cbn [app] in HN. change (T ">" ++ t ++ rest) with (C ">" :: t ++ rest). rewrite HN. now rewrite HF.
    - cbn [app]. change (is "?" (bN "?")) with true. cbn iota.
      change (is "P" (bN "<") && is "<" c) with false. cbn iota. change (is "<" (bN "<")) with true. cbn iota. rewrite E1, E2. cbn [orb].
      unfold parse_named. cbn [app] in HN. change (T ">" ++ t ++ rest) with (C ">" :: t ++ rest). rewrite HN. now rewrite HF.
  Qed.

  Lemma syntax_of m :
    (forall t r ns, atom m t r ns -> Atom_read m t r ns) /\ (forall o t r ns, piece m o t r ns -> Piece_read m o t r ns) /\
    (forall t r m' ns, branch m t r m' ns -> Branch_read m t r m' ns) /\ (forall t r m' ns, alternatives m t r m' ns -> Alts_read m t r m' ns).
  Proof.
    revert m. apply (@syntax_ind same_letter unicode_digit unicode_word unicode_class alphabetic alphanumeric Atom_read Piece_read Branch_read Alts_read).
    - intros m c p Hc Hp [|fuel] names rest alts cat Hn Hb Hf; [lia|]. exists fuel. eexists. splits; [apply (loop_char m rest Hc)| |cbn; lia].
      constructor. exact (is_same (fold_is m (eq_is c)) Hp).
    - intros m t c p Ht Hp [|fuel] names rest alts cat Hn Hb Hf; [lia|]. exists fuel. eexists. splits; [apply (@loop_escape m _ _ _ (escaped_char m rest Ht))| |cbn; lia].
      constructor. exact (is_same (fold_is m (eq_is c)) Hp).
    - intros m t P p Ht Hp [|fuel] names rest alts cat Hn Hb Hf; [lia|]. destruct (kind_of rest Ht) as (q & Hq & HP). exists fuel. eexists. splits; [apply (@loop_escape m _ _ _ Hq)| |cbn; lia].
      constructor. exact (is_same HP Hp).
    - intros m t P f Ht Hp [|fuel] names rest alts cat Hn Hb Hf; [lia|]. destruct (place_of m Ht Hb) as (q & Hq & HP). exists fuel. eexists. splits; [apply (@loop_escape m _ _ _ Hq)| |cbn; lia].
      constructor. intros w i. apply Bool.eq_iff_eq_true. now rewrite (Hp w i), (HP w i).
    - intros m p Hp [|fuel] names rest alts cat Hn Hb Hf; [lia|]. exists fuel. eexists. splits; [reflexivity| |cbn; lia].
      constructor. exact (is_same (any_is m) Hp).
    - intros m f Hp [|fuel] names rest alts cat Hn Hb Hf; [lia|]. exists fuel. eexists. splits; [reflexivity| |cbn; lia].
      constructor. exact (starts_is Hp).
    - intros m f Hp [|fuel] names rest alts cat Hn Hb Hf; [lia|]. exists fuel. eexists. splits; [reflexivity| |cbn; lia].
      constructor. exact (ends_is Hp).
    - intros m t P p Ht Hp [|fuel] names rest alts cat Hn Hb Hf; [lia|]. destruct (class_atom rest Ht) as (s & q & -> & Hq & HP). exists fuel. eexists.
      splits; [apply (@loop_class m _ _ _ Hq)| |cbn; lia]. constructor. exact (is_same HP Hp).
    - intros m t r m' ns Ht IH [|fuel] names rest alts cat Hn Hb Hf; [lia|]. rewrite !app_length in Hf. cbn in Hf.
      destruct (IH fuel names (C ")" :: rest) [] Hn) as (r' & Hr & HS); [eauto|rewrite app_length; cbn; lia|].
      exists fuel, r'. splits; auto. 2: { rewrite !app_length. cbn. lia. } rewrite <- !app_assoc. refine (group_of m _ _ _ _ _ _ Hr).
      { unfold open_group. change (f_x (fl m)) with false. cbn [bump_space]. destruct (alts_first Ht) as [->|(c & s & -> & Hc)]; [reflexivity|].
        cbn [app]. now rewrite (@is_in "?" c _ Hc) by (cbn; tauto). }
    - intros m f m1 t r m' ns Hw Ht IH [|fuel] names rest alts cat Hn Hb Hf; [lia|]. rewrite !app_length in Hf. cbn in Hf.
      destruct (IH fuel names (C ")" :: rest) [] Hn) as (r' & Hr & HS); [eauto|rewrite app_length; cbn; lia|].
      exists fuel, r'. splits; auto. 2: { rewrite !app_length. cbn. lia. } rewrite <- !app_assoc. refine (group_of m _ _ _ _ _ _ Hr). apply (flags_group names _ Hw).
    - intros m o name t r m' ns Ho Hg Ht IH [|fuel] names rest alts cat Hn Hb Hf; [lia|].
      assert (length t + S (length rest) < fuel) as Hf'. { rewrite !app_length in Hf. cbn in Hf. destruct Ho as [<-|[<-|[]]]; cbn in Hf; lia. }
      assert (~ In name names) as Hnn. { cbn in Hn. inversion Hn; subst. intros G. apply H1, in_or_app; auto. }
      destruct (IH fuel (name :: names) (C ")" :: rest) []) as (r' & Hr & HS); [|eauto|rewrite app_length; cbn; lia|].
      { apply (@Permutation_NoDup _ ((name :: ns) ++ names)); auto. cbn [app]. apply Permutation_middle. }
      destruct (named_group m names t (C ")" :: rest) Ho Hg Hnn) as (s & Es & Hs).
      exists fuel, r'. splits; auto. 2: { rewrite !app_length. cbn. lia. }
      cbn [rev]. rewrite <- !app_assoc. cbn [app]. change (T ")" ++ rest) with (C ")" :: rest). rewrite Es. exact (group_of m _ _ _ _ _ Hs Hr).
    - intros m t r ns Ht IH fuel names rest alts cat Hn Hb _ Hf. apply IH; auto.
    - intros m o t r ns q min max greedy o' Ht IH Hq Ho fuel names rest alts cat Hn Hb Hr Hf. rewrite <- app_assoc.
      assert (exists k, Count k min max /\ (q = k /\ greedy = negb (swap_greed m) /\ o' = true \/ q = k ++ T "?" /\ greedy = swap_greed m /\ o' = false)) as (kt & Hc & Hk).
      { destruct Hq as [k min max Hc|k min max Hc]; exists k; auto 6. }
      assert (Braces (q ++ rest)) as HB. { destruct Hk as [(-> & _)|(-> & _)]; rewrite <- ?app_assoc; eapply count_brace; eauto. }
      assert (o = true -> hd_error (q ++ rest) <> Some (C "?")) as HO.
      { intros Eo. specialize (Ho Eo). destruct (count_of Hc) as (c & s & -> & _). destruct Hk as [(-> & _)|(-> & _)]; exact Ho. }
      destruct (IH fuel names (q ++ rest) alts cat Hn HB HO) as (k & r' & H1 & HS & Hle). { rewrite <- app_assoc in Hf. exact Hf. }
      rewrite H1. destruct k as [|k]. { rewrite !app_length in Hf. lia. }
      destruct (count_of Hc) as (c & s & Ek & Hcs & Hstep). exists k, (Rep min max greedy r'). splits; [|now constructor|].
      2: { destruct Hk as [(-> & _)|(-> & _)]; rewrite Ek, !app_length; cbn; lia. }
      destruct Hk as [(-> & -> & ->)|(-> & -> & ->)].
      + rewrite Hstep. assert (parse_greedy rest = (true, rest)) as ->.
        { specialize (Hr eq_refl). unfold parse_greedy. destruct rest as [|x rest]; auto. destruct (is "?" x) eqn:E; auto. exfalso. apply Hr. cbn. f_equal. unfold is in E. now apply N.eqb_eq in E. }
        now rewrite Bool.xorb_true_r.
      + rewrite <- app_assoc, Hstep. change (parse_greedy (T "?" ++ rest)) with (false, rest). cbn iota. now rewrite Bool.xorb_false_r.
    - intros m fuel names rest alts cat Hn Hs Hf. exists fuel, []. splits; auto. constructor. lia.
    - intros m f m1 t r m' ns Hw Hne Ht IH [|fuel] names rest alts cat Hn Hs Hf; [lia|].
      rewrite !app_length in Hf. cbn in Hf.
      destruct (IH fuel names rest alts (None :: cat) Hn Hs) as (k & its & H1 & H2 & Hle). { rewrite app_length. lia. }
      exists k, (None :: its). splits. 3: rewrite !app_length; cbn; lia.
      + rewrite <- !app_assoc. change (T "(?" ++ f ++ T ")" ++ t ++ rest) with (C "(" :: C "?" :: f ++ C ")" :: t ++ rest).
        rewrite (loop_change (t ++ rest) Hw Hne). cbn [rev]. rewrite <- app_assoc. exact H1.
      + cbn [rev]. rewrite cat_of_snoc. exact H2.
    - intros m o t1 r1 ns1 t2 r2 m' ns2 H1 IH1 H2 IH2 fuel names rest alts cat Hn Hs Hf.
      destruct (@names_left _ _ _ Hn) as (Hn1 & Hn2). destruct (@branch_rest _ _ _ _ _ rest H2 Hs) as (HB & HQ). rewrite <- app_assoc in *.
      destruct (IH1 fuel names (t2 ++ rest) alts cat Hn1 HB (fun _ => HQ) Hf) as (k & r' & E1 & HS1 & Hle1). rewrite E1.
      destruct (IH2 k (rev ns1 ++ names) rest alts (Some r' :: cat) Hn2 Hs) as (k2 & its & E2 & HS2 & Hle2). { rewrite !app_length in *. lia. }
      exists k2, (Some r' :: its). splits. 3: rewrite app_length; lia.
      + rewrite E2. rewrite rev_app_distr. cbn [rev]. now rewrite <- !app_assoc.
      + cbn [rev]. rewrite cat_of_snoc. destruct (cat_of (rev its)); try (constructor; assumption).
    - intros m t r m' ns H IH fuel names rest alts Hn Hr Hf.
      destruct (IH fuel names rest alts [] Hn) as (k & its & E & HS & Hle); auto. { destruct Hr as [->|(s & ->)]; [now left|right]. eexists _, _. split; [reflexivity|]. vm_compute. tauto. }
      rewrite E. destruct k as [|k]. { rewrite app_length in Hf. lia. } rewrite (loop_stop m' Hr), app_nil_r. eauto.
    - intros m t1 r1 m1 ns1 t2 r2 m2 ns2 H1 IH1 H2 IH2 fuel names rest alts Hn Hr Hf. destruct (@names_left _ _ _ Hn) as (Hn1 & Hn2).
      rewrite <- !app_assoc in *. change (T "|" ++ t2 ++ rest) with (C "|" :: t2 ++ rest) in *.
      destruct (IH1 fuel names (C "|" :: t2 ++ rest) alts [] Hn1) as (k & its & E & HS & Hle); auto. { right. eexists _, _. split; [reflexivity|]. vm_compute. tauto. }
      rewrite E. rewrite app_length in Hf. cbn in Hf. destruct k as [|k]. { lia. } rewrite loop_or, app_nil_r.
      destruct (IH2 k (rev ns1 ++ names) rest (cat_of (rev its) :: alts) Hn2 Hr) as (r2' & E2 & HS2). { lia. }
      rewrite E2. eexists. split. cbn [alt_of fold_left]. rewrite rev_app_distr, <- app_assoc. reflexivity. now constructor.
  Qed.

  (** A name that occurs twice is found. *)
  Definition Atom_dup m (t : list N) (r : re) ns : Prop := forall fuel names rest alts cat, NoDup names -> ~ NoDup (ns ++ names) -> Braces rest ->
    length (t ++ rest) < fuel -> p_loop fuel (fl m) names (t ++ rest) alts cat = None.
  Definition Piece_dup m (o : bool) (t : list N) (r : re) ns : Prop := forall fuel names rest alts cat, NoDup names -> ~ NoDup (ns ++ names) -> Braces rest ->
    (o = true -> hd_error rest <> Some (C "?")) -> length (t ++ rest) < fuel -> p_loop fuel (fl m) names (t ++ rest) alts cat = None.
  Definition Branch_dup m (t : list N) (r : re) (m' : mode) ns : Prop := forall fuel names rest alts cat, NoDup names -> ~ NoDup (ns ++ names) -> Stop rest ->
    length (t ++ rest) < fuel -> p_loop fuel (fl m) names (t ++ rest) alts cat = None.
  Definition Alts_dup m (t : list N) (r : re) (m' : mode) ns : Prop := forall fuel names rest alts, NoDup names -> ~ NoDup (ns ++ names) -> (rest = [] \/ exists s, rest = C ")" :: s) ->
    length (t ++ rest) < fuel -> p_loop fuel (fl m) names (t ++ rest) alts [] = None.
  Lemma nodup_dec (l : list (list N)) : NoDup l \/ ~ NoDup l.
  Proof.
    induction l as [|x l IH]; [left; constructor|]. destruct IH as [IH|IH]; [|right; intros H; inversion H; auto].
    destruct (in_dec (list_eq_dec N.eq_dec) x l) as [H|H]; [right; intros G; inversion G; auto|left; now constructor].
  Qed.
  Lemma names_dup (a b names : list (list N)) : NoDup (a ++ names) -> ~ NoDup ((a ++ b) ++ names) -> NoDup (rev a ++ names) /\ ~ NoDup (b ++ rev a ++ names).
  Proof.
    intros H1 H2. split. { apply (@Permutation_NoDup _ (a ++ names)); auto. apply Permutation_app_tail, Permutation_rev. }
    intros H. apply H2. apply (@Permutation_NoDup _ (b ++ rev a ++ names)); auto. rewrite (app_assoc b). apply Permutation_app_tail.
    rewrite Permutation_app_comm. apply Permutation_app_tail. symmetry. apply Permutation_rev.
  Qed.
  Lemma group_none m s f' ns1 names fuel alts cat s1 :
    open_group alphabetic alphanumeric (fl m) names s = Some (Group f' ns1, s1) -> p_loop fuel f' ns1 s1 [] [] = None ->
    p_loop (S fuel) (fl m) names (C "(" :: s) alts cat = None.
  Proof. intros H1 H2. cbn [parse_loop]. change (f_x (fl m)) with false. cbn [bump_space]. unfold C at 1 2 3. tests. now rewrite H1, H2. Qed.
  Lemma named_none m names o name t rest : In o [T "(?P<"; T "(?<"] -> Group_name alphabetic alphanumeric name -> In name names ->
    exists s, o ++ name ++ T ">" ++ t ++ rest = C "(" :: s /\ open_group alphabetic alphanumeric (fl m) names s = None.
  Proof.
    intros Ho Hn Hf. pose proof (name_of (t ++ rest) Hn) as HN.
    assert (existsb (chars_eqb name) names = true) as HF. { apply existsb_exists. exists name. split; auto. now apply chars_eqb_eq. }
    destruct name as [|c cs]; [destruct Hn as [[] _]|]. destruct Hn as [_ Hn]. inversion Hn; subst.
    assert (is "=" c = false) as E1 by (apply (@is_in "=" c ">=!"); auto; cbn; tauto).
    assert (is "!" c = false) as E2 by (apply (@is_in "!" c ">=!"); auto; cbn; tauto).
    destruct Ho as [<-|[<-|[]]]; (eexists; split; [reflexivity|]); unfold open_group; change (f_x (fl m)) with false; cbn [bump_space].
    - cbn [app]. change (is "?" (bN "?")) with true. cbn iota.
      change (is "P" (bN "P") && is "<" (bN "<")) with true. cbn iota. unfold parse_named. change (bN ">" :: t ++ rest) with (C ">" :: t ++ rest).
      cbn [app] in HN. change (T ">" ++ t ++ rest) with (C ">" :: t ++ rest). rewrite HN. now rewrite HF.
    - cbn [app]. change (is "?" (bN "?")) with true. cbn iota.
      change (is "P" (bN "<") && is "<" c) with false. cbn iota. change (is "<" (bN "<")) with true. cbn iota. rewrite E1, E2. cbn [orb].
      unfold parse_named. cbn [app] in HN. change (T ">" ++ t ++ rest) with (C ">" :: t ++ rest). rewrite HN. now rewrite HF.
  Qed.
  Lemma dup_of m :
    (forall t r ns, atom m t r ns -> Atom_dup m t r ns) /\ (forall o t r ns, piece m o t r ns -> Piece_dup m o t r ns) /\
    (forall t r m' ns, branch m t r m' ns -> Branch_dup m t r m' ns) /\ (forall t r m' ns, alternatives m t r m' ns -> Alts_dup m t r m' ns).
  Proof.
    revert m. apply (@syntax_ind same_letter unicode_digit unicode_word unicode_class alphabetic alphanumeric Atom_dup Piece_dup Branch_dup Alts_dup).
    1-8: (intros; intros fuel names rest alts cat Hn Hd; now destruct Hd).
    - intros m t r m' ns Ht IH [|fuel] names rest alts cat Hn Hd Hb Hf; [lia|]. rewrite !app_length in Hf. cbn in Hf.
      rewrite <- !app_assoc. refine (group_none m _ _ _ _ _ _ (IH fuel names (C ")" :: rest) [] Hn Hd _ _)); [|eauto|rewrite app_length; cbn; lia].
      unfold open_group. change (f_x (fl m)) with false. cbn [bump_space]. destruct (alts_first Ht) as [->|(c & s & -> & Hc)]; [reflexivity|].
      cbn [app]. now rewrite (@is_in "?" c _ Hc) by (cbn; tauto).
    - intros m f m1 t r m' ns Hw Ht IH [|fuel] names rest alts cat Hn Hd Hb Hf; [lia|]. rewrite !app_length in Hf. cbn in Hf.
      rewrite <- !app_assoc. refine (group_none m _ _ _ _ _ _ (IH fuel names (C ")" :: rest) [] Hn Hd _ _)); [|eauto|rewrite app_length; cbn; lia].
      apply (flags_group names _ Hw).
    - intros m o name t r m' ns Ho Hg Ht IH [|fuel] names rest alts cat Hn Hd Hb Hf; [lia|].
      assert (length t + S (length rest) < fuel) as Hf'. { rewrite !app_length in Hf. cbn in Hf. destruct Ho as [<-|[<-|[]]]; cbn in Hf; lia. }
      rewrite <- !app_assoc. change (T ")" ++ rest) with (C ")" :: rest).
      destruct (in_dec (list_eq_dec N.eq_dec) name names) as [Hi|Hi].
      + destruct (named_none m names t (C ")" :: rest) Ho Hg Hi) as (s & -> & Hs). cbn [parse_loop]. change (f_x (fl m)) with false. cbn [bump_space]. unfold C at 1 2 3. tests. now rewrite Hs.
      + destruct (named_group m names t (C ")" :: rest) Ho Hg Hi) as (s & -> & Hs).
        refine (group_none m _ _ _ _ _ Hs (IH fuel (name :: names) (C ")" :: rest) [] _ _ _ _)); [now constructor| |eauto|rewrite app_length; cbn; lia].
        intros G. apply Hd. apply (@Permutation_NoDup _ (ns ++ name :: names)); auto. cbn [app]. symmetry. apply Permutation_middle.
    - intros m t r ns Ht IH fuel names rest alts cat Hn Hd Hb _ Hf. apply IH; auto.
    - intros m o t r ns q min max greedy o' Ht IH Hq Ho fuel names rest alts cat Hn Hd Hb Hr Hf. rewrite <- app_assoc in *.
      assert (exists k, Count k min max /\ (q = k \/ q = k ++ T "?")) as (kt & Hc & Hk).
      { destruct Hq as [k min max Hc|k min max Hc]; exists k; auto 6. }
      apply IH; auto.
      + destruct Hk as [-> | ->]; rewrite <- ?app_assoc; eapply count_brace; eauto.
      + intros Eo. specialize (Ho Eo). destruct (count_of Hc) as (c & s & -> & _). destruct Hk as [-> | ->]; exact Ho.
    - intros m fuel names rest alts cat Hn Hd. now destruct Hd.
    - intros m f m1 t r m' ns Hw Hne Ht IH [|fuel] names rest alts cat Hn Hd Hs Hf; [lia|].
      rewrite !app_length in Hf. cbn in Hf. rewrite <- !app_assoc. change (T "(?" ++ f ++ T ")" ++ t ++ rest) with (C "(" :: C "?" :: f ++ C ")" :: t ++ rest).
      rewrite (loop_change (t ++ rest) Hw Hne). apply IH; auto. rewrite app_length. lia.
    - intros m o t1 r1 ns1 t2 r2 m' ns2 H1 IH1 H2 IH2 fuel names rest alts cat Hn Hd Hs Hf. rewrite <- app_assoc in Hf |- *.
      destruct (@branch_rest _ _ _ _ _ rest H2 Hs) as (HB & HQ). destruct (nodup_dec (ns1 ++ names)) as [Hd1|Hd1].
      + destruct (@names_dup _ _ _ Hd1 Hd) as (Hn1 & Hd2).
        destruct (proj1 (proj2 (syntax_of m)) _ _ _ _ H1 fuel names (t2 ++ rest) alts cat Hd1 HB (fun _ => HQ) Hf) as (k & r' & E1 & _ & Hle1). rewrite E1.
        apply IH2; auto. rewrite !app_length in *. lia.
      + apply IH1; auto.
    - intros m t r m' ns H IH fuel names rest alts Hn Hd Hr Hf. apply IH; auto. destruct Hr as [->|(s & ->)]; [now left|right]. eexists _, _. split; [reflexivity|]. vm_compute. tauto.
    - intros m t1 r1 m1 ns1 t2 r2 m2 ns2 H1 IH1 H2 IH2 fuel names rest alts Hn Hd Hr Hf.
      rewrite <- !app_assoc in Hf |- *. change (T "|" ++ t2 ++ rest) with (C "|" :: t2 ++ rest) in *.
      assert (Stop (C "|" :: t2 ++ rest)) as HS. { right. eexists _, _. split; [reflexivity|]. vm_compute. tauto. }
      destruct (nodup_dec (ns1 ++ names)) as [Hd1|Hd1].
      + destruct (@names_dup _ _ _ Hd1 Hd) as (Hn1 & Hd2).
        destruct (proj1 (proj2 (proj2 (syntax_of m))) _ _ _ _ H1 fuel names (C "|" :: t2 ++ rest) alts [] Hd1 HS Hf) as (k & its & E & _ & Hle).
        rewrite E. rewrite app_length in Hf. cbn in Hf. destruct k as [|k]. { lia. } rewrite loop_or. apply IH2; auto. lia.
      + apply IH1; auto.
  Qed.

  Notation parse := (parse_regex same_letter unicode_digit unicode_word unicode_class alphabetic alphanumeric).
  Theorem parse_syntax t r m' ns : alternatives plain t r m' ns -> NoDup ns -> exists r', parse t = Some (r', rev ns) /\ Same r' r.
  Proof.
    intros H Hn. destruct (proj2 (proj2 (proj2 (syntax_of plain))) _ _ _ _ H (S (length t)) [] [] []) as (r' & E & HS).
    { now rewrite app_nil_r. } { now left. } { rewrite app_nil_r. lia. }
    exists r'. split; auto. unfold parse_regex. rewrite !app_nil_r in E. change no_flags with (fl plain). rewrite E. reflexivity.
  Qed.
  Theorem parse_dup t r m' ns : alternatives plain t r m' ns -> ~ NoDup ns -> parse t = None.
  Proof.
    intros H Hn. pose proof (proj2 (proj2 (proj2 (dup_of plain))) _ _ _ _ H (S (length t)) [] [] [] (NoDup_nil _)) as E.
    rewrite !app_nil_r in E. unfold parse_regex. change no_flags with (fl plain). rewrite E; auto.
  Qed.
  (** What is not closed, what closes nothing, what repeats nothing. *)
  Theorem parse_closed t r m' ns rest : alternatives plain t r m' ns -> parse (t ++ C ")" :: rest) = None.
  Proof.
    intros H. unfold parse_regex. change no_flags with (fl plain). destruct (nodup_dec ns) as [Hn|Hn].
    - destruct (proj2 (proj2 (proj2 (syntax_of plain))) _ _ _ _ H (S (length (t ++ C ")" :: rest))) [] (C ")" :: rest) []) as (r' & E & HS).
      { now rewrite app_nil_r. } { eauto. } { lia. } now rewrite E.
    - rewrite (proj2 (proj2 (proj2 (dup_of plain))) _ _ _ _ H (S (length (t ++ C ")" :: rest))) [] (C ")" :: rest) [] (NoDup_nil _)); auto. now rewrite app_nil_r. eauto.
  Qed.
  Theorem parse_open t1 r1 m1 ns1 t2 r2 m2 ns2 : branch plain t1 r1 m1 ns1 -> alternatives m1 t2 r2 m2 ns2 -> parse (t1 ++ C "(" :: t2) = None.
  Proof.
    intros H1 H2. unfold parse_regex. change no_flags with (fl plain).
    assert (Stop (C "(" :: t2)) as HS. { right. eexists _, _. split; [reflexivity|]. vm_compute. tauto. }
    destruct (nodup_dec ns1) as [Hn|Hn].
    - destruct (proj1 (proj2 (proj2 (syntax_of plain))) _ _ _ _ H1 (S (length (t1 ++ C "(" :: t2))) [] (C "(" :: t2) [] []) as (k & its & E & _ & Hle); auto.
      { now rewrite app_nil_r. } rewrite E. rewrite app_length in Hle. cbn [List.length] in Hle. destruct k as [|k]. { lia. } rewrite app_nil_r in *.
      assert (length t2 < k) as Hk by lia.
      assert (open_group alphabetic alphanumeric (fl m1) (rev ns1) t2 = Some (Group (fl m1) (rev ns1), t2)) as HO.
      { unfold open_group. change (f_x (fl m1)) with false. cbn [bump_space]. destruct (alts_first H2) as [->|(c & s & -> & Hc)]; [reflexivity|].
        cbn [app]. now rewrite (@is_in "?" c _ Hc) by (cbn; tauto). }
      assert (exists x ns, p_loop k (fl m1) (rev ns1) t2 [] [] = Some (x, [], ns) \/ p_loop k (fl m1) (rev ns1) t2 [] [] = None) as (x & ns & [Hx|Hx]).
      { destruct (nodup_dec (ns2 ++ rev ns1)) as [Hd|Hd].
        - destruct (proj2 (proj2 (proj2 (syntax_of m1))) _ _ _ _ H2 k (rev ns1) [] []) as (r' & E2 & _); auto. { rewrite app_nil_r. exact Hk. } rewrite app_nil_r in E2. eauto.
        - exists Empty, []. right. pose proof (proj2 (proj2 (proj2 (dup_of m1))) _ _ _ _ H2 k (rev ns1) [] []) as E2. rewrite app_nil_r in E2. apply E2; auto. now apply NoDup_rev. }
      + cbn [parse_loop]. change (f_x (fl m1)) with false. cbn [bump_space]. unfold C at 1 2 3. tests. now rewrite HO, Hx.
      + now rewrite (group_none m1 _ _ _ _ _ HO Hx).
    - rewrite (proj1 (proj2 (proj2 (dup_of plain))) _ _ _ _ H1 (S (length (t1 ++ C "(" :: t2))) [] (C "(" :: t2) [] [] (NoDup_nil _)); auto. now rewrite app_nil_r.
  Qed.
  (** After a backslash must come something known. *)
  Theorem parse_escape_none t1 r1 m1 ns1 rest : branch plain t1 r1 m1 ns1 -> p_escape (fl m1) rest = None -> parse (t1 ++ C "\" :: rest) = None.
  Proof.
    intros H1 H2. unfold parse_regex. change no_flags with (fl plain).
    assert (Stop (C "\" :: rest)) as HS. { right. eexists _, _. split; [reflexivity|]. vm_compute. tauto. }
    destruct (nodup_dec ns1) as [Hn|Hn].
    - destruct (proj1 (proj2 (proj2 (syntax_of plain))) _ _ _ _ H1 (S (length (t1 ++ C "\" :: rest))) [] (C "\" :: rest) [] []) as (k & its & E & _ & Hle); auto.
      { now rewrite app_nil_r. } rewrite E. rewrite app_length in Hle. cbn [List.length] in Hle. destruct k as [|k]. { lia. }
      cbn [parse_loop]. change (f_x (fl m1)) with false. cbn [bump_space]. unfold C at 1. tests. now rewrite H2.
    - rewrite (proj1 (proj2 (proj2 (dup_of plain))) _ _ _ _ H1 (S (length (t1 ++ C "\" :: rest))) [] (C "\" :: rest) [] [] (NoDup_nil _)); auto. now rewrite app_nil_r.
  Qed.
  Lemma hex_digit_none c : (forall x, ~ Digit c x) -> hex_digit c = None.
  Proof.
    intros H. unfold hex_digit, between.
    repeat match goal with |- context [N.leb ?a ?b] => destruct (N.leb_spec a b) end; cbn [andb]; try reflexivity; exfalso.
    all: first [apply (H (c - 0x30)%N); left; lia|apply (H (c - 0x41 + 10)%N); right; lia|apply (H (c - 0x61 + 10)%N); right; lia].
  Qed.
  Lemma escape_unknown f c rest : (128 <= c)%N \/ Alnum c /\ ~ In c (T "xuUpPdDsSwWatnvfrAzbB") -> p_escape f (c :: rest) = None.
  Proof.
    intros H. unfold parse_escape.
    assert (forall n, In n (T "xuUpPdDsSwWatnvfrAzbB") \/ n = 0x3C%N \/ n = 0x3E%N -> (c =? n)%N = false) as HI.
    { intros n Hn. apply N.eqb_neq. intros ->. destruct H as [H|[H1 H2]]; [|destruct Hn as [Hn|[-> | ->]]; [contradiction| |]; unfold Alnum in H1; lia].
      assert (n < 128)%N; [|lia]. destruct Hn as [Hn|[-> | ->]]; [|lia|lia]. vm_compute in Hn. repeat (destruct Hn as [<-|Hn]; [lia|]). contradiction. }
    unfold is. repeat match goal with |- context [if (c =? bN ?b)%N then _ else _] => rewrite (HI (bN b)) by first [solve [left; repeat (first [left; reflexivity|right])]|right; left; reflexivity|right; right; reflexivity] end.
    unfold Alnum in H. unfold between.
    repeat match goal with |- context [N.leb ?a ?b] => destruct (N.leb_spec a b) end; cbn [andb orb]; try reflexivity;
      (destruct (N.ltb_spec 0x7F c); [reflexivity|exfalso; lia]).
  Qed.
  Lemma scalar_none c : ~ Scalar c -> is_scalar c = false.
  Proof. unfold Scalar, is_scalar, between. intros H. destruct (N.ltb_spec c 0xD800), (N.leb_spec 0xE000 c), (N.leb_spec c 0x10FFFF); cbn [andb orb]; auto; exfalso; lia. Qed.
  Lemma hex_none k ds n c rest : Numeral 16 ds n -> length ds < k -> (forall x, ~ Digit c x) -> (ds = [] -> c <> C "{") -> parse_hex false k (ds ++ c :: rest) = None.
  Proof.
    intros H Hk Hc H0. unfold parse_hex. change (bump_space false (ds ++ c :: rest)) with (ds ++ c :: rest).
    pose proof (hex_digits_of H (k - length ds) (c :: rest) 0) as HX. replace (length ds + (k - length ds)) with k in HX by lia.
    replace (k - length ds) with (S (k - length ds - 1)) in HX by lia. cbn [hex_digits] in HX. rewrite (hex_digit_none Hc) in HX.
    destruct ds as [|d ds]; cbn [app] in *.
    - assert (is "{" c = false) as ->. { unfold is. apply N.eqb_neq. intros E. now apply (H0 eq_refl). } cbn [app] in HX. now rewrite HX.
    - destruct (numeral_first H) as (d' & x & ds' & E & Hd & _); [discriminate|]. injection E as <- <-.
      assert (is "{" d = false) as ->. { unfold is. apply N.eqb_neq. apply digit_range in Hd. change (bN "{") with 0x7B%N. lia. } now rewrite HX.
  Qed.
  Lemma hex_short k ds n : Numeral 16 ds n -> length ds < k -> parse_hex false k ds = None.
  Proof.
    intros H Hk. unfold parse_hex. cbn [bump_space]. pose proof (hex_digits_of H (k - length ds) [] 0) as HX. rewrite app_nil_r in HX.
    replace (length ds + (k - length ds)) with k in HX by lia. replace (k - length ds) with (S (k - length ds - 1)) in HX by lia. cbn [hex_digits] in HX.
    destruct ds as [|d ds]; [reflexivity|]. destruct (numeral_first H) as (d' & x & ds' & E & Hd & _); [discriminate|]. injection E as <- <-.
    assert (is "{" d = false) as ->. { unfold is. apply N.eqb_neq. apply digit_range in Hd. change (bN "{") with 0x7B%N. lia. } now rewrite HX.
  Qed.
  Lemma hex_brace_open k ds n : Numeral 16 ds n -> parse_hex false k (C "{" :: ds) = None.
  Proof.
    intros H. unfold parse_hex, C. cbn [bump_space]. tests. pose proof (@hex_brace_of _ _ H 1 [] 0 0) as HX. rewrite app_nil_r in HX.
    cbn [List.length]. replace (S (length ds)) with (length ds + 1) by lia. rewrite HX. reflexivity.
  Qed.
  Lemma hex_brace_none k ds n c rest : Numeral 16 ds n -> (forall x, ~ Digit c x) -> (c = C "}" -> ds = []) -> parse_hex false k (C "{" :: ds ++ c :: rest) = None.
  Proof.
    intros H Hc H0. unfold parse_hex, C. cbn [bump_space]. tests.
    pose proof (@hex_brace_of _ _ H (length rest + 2) (c :: rest) 0 0) as HX.
    replace (length (bN "{" :: ds ++ c :: rest)) with (length ds + (length rest + 2)).
    2: { cbn [List.length]. rewrite app_length. cbn [List.length]. lia. }
    rewrite HX. replace (length rest + 2) with (S (length rest + 1)) by lia. cbn [hex_brace].
    destruct (is "}" c) eqn:E.
    - unfold is in E. apply N.eqb_eq in E. rewrite (H0 E). reflexivity.
    - now rewrite (hex_digit_none Hc).
  Qed.
  Lemma hex_large ds n rest : Numeral 16 ds n -> ds <> [] -> ~ Scalar n -> parse_hex false (length ds) (ds ++ rest) = None.
  Proof.
    intros H Hne Hc. unfold parse_hex. cbn [bump_space]. destruct (numeral_first H Hne) as (d & x & ds' & E & Hd & _).
    pose proof (hex_digits_of H 0 rest 0) as HX. rewrite Nat.add_0_r in HX. rewrite E in *. cbn [app] in *.
    assert (is "{" d = false) as ->. { unfold is. apply N.eqb_neq. apply digit_range in Hd. change (bN "{") with 0x7B%N. lia. }
    rewrite HX. cbn [hex_digits]. rewrite N.mul_0_r, N.add_0_l. now rewrite (scalar_none Hc).
  Qed.
  Lemma hex_brace_large ds n k rest : Numeral 16 ds n -> ds <> [] -> ~ Scalar n -> parse_hex false k (C "{" :: ds ++ C "}" :: rest) = None.
  Proof.
    intros H Hne Hc. unfold parse_hex, C. cbn [bump_space]. tests.
    pose proof (@hex_brace_of _ _ H (length rest + 2) (bN "}" :: rest) 0 0) as HX.
    replace (length (bN "{" :: ds ++ bN "}" :: rest)) with (length ds + (length rest + 2)).
    2: { cbn [List.length]. rewrite app_length. cbn [List.length]. lia. }
    rewrite HX. replace (length rest + 2) with (S (length rest + 1)) by lia. cbn [hex_brace]. tests.
    destruct ds as [|d ds]; [congruence|]. cbn [List.length Nat.add Nat.eqb bump_space]. rewrite N.mul_0_r, N.add_0_l. now rewrite (scalar_none Hc).
  Qed.

  Lemma count_none q min max : Count q min max -> forall m fuel names rest alts, p_loop fuel (fl m) names (q ++ rest) alts [] = None.
  Proof.
    intros H m [|fuel] names rest alts; [reflexivity|]. destruct (count_of H) as (c & s & -> & Hc & _). cbn [app parse_loop].
    change (f_x (fl m)) with false. cbn [bump_space]. destruct Hc as [<-|[<-|[<-|[<-|[]]]]]; tests; try reflexivity. now destruct (parse_counts false (s ++ rest)) as [[[a b] s']|].
  Qed.
  Theorem parse_nothing t r m' ns q min max rest : Count q min max -> alternatives plain t r m' ns ->
    parse (q ++ rest) = None /\ parse (t ++ C "|" :: q ++ rest) = None.
  Proof.
    intros Hq H. split. { unfold parse_regex. change no_flags with (fl plain). now rewrite (count_none Hq). }
    assert (forall m t r m' ns, alternatives m t r m' ns -> forall fuel names alts, NoDup names -> length (t ++ C "|" :: q ++ rest) < fuel ->
      p_loop fuel (fl m) names (t ++ C "|" :: q ++ rest) alts [] = None) as HX.
    { clear t r m' ns H. intros m t r m' ns H.
      induction H as [m t r m' ns H|m t1 r1 m1 ns1 t2 r2 m2 ns2 H1 H2 IH]; intros fuel names alts Hn Hf.
      - assert (Stop (C "|" :: q ++ rest)) as HS. { right. eexists _, _. split; [reflexivity|]. vm_compute. tauto. }
        destruct (nodup_dec (ns ++ names)) as [Hd|Hd]; [|apply (proj1 (proj2 (proj2 (dup_of m))) _ _ _ _ H); auto].
        destruct (proj1 (proj2 (proj2 (syntax_of m))) _ _ _ _ H fuel names (C "|" :: q ++ rest) alts [] Hd HS Hf) as (k & its & E & _ & Hle). rewrite E.
        destruct k as [|k]; [reflexivity|]. rewrite loop_or. apply (count_none Hq).
      - rewrite <- !app_assoc in Hf |- *. change (T "|" ++ t2 ++ C "|" :: q ++ rest) with (C "|" :: t2 ++ C "|" :: q ++ rest) in *.
        assert (Stop (C "|" :: t2 ++ C "|" :: q ++ rest)) as HS. { right. eexists _, _. split; [reflexivity|]. vm_compute. tauto. }
        destruct (nodup_dec (ns1 ++ names)) as [Hd|Hd]; [|apply (proj1 (proj2 (proj2 (dup_of m))) _ _ _ _ H1); auto].
        destruct (proj1 (proj2 (proj2 (syntax_of m))) _ _ _ _ H1 fuel names _ alts [] Hd HS Hf) as (k & its & E & _ & Hle). rewrite E.
        rewrite app_length in Hf. cbn [List.length] in Hf. destruct k as [|k]; [reflexivity|]. rewrite loop_or. apply IH; [|lia].
        apply (@Permutation_NoDup _ (ns1 ++ names)); auto. apply Permutation_app_tail, Permutation_rev. }
    unfold parse_regex. change no_flags with (fl plain). rewrite (HX _ _ _ _ _ H); auto. constructor.
  Qed.
End Syntax.
