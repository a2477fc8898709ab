(** The parser of regular expressions is compositional: an expression keeps its meaning in parentheses. *)
From Coq.Strings Require Import String.
From Verif Require Import Base BaseProofs Utf8 SpecUtf8 Utf8Proofs SpecJson Json SpecRegex Regex.
Set Implicit Arguments.
Local Open Scope list_scope.

Definition Suffix (r s : list N) : Prop := exists p, s = p ++ r.
Lemma Suffix_refl s : Suffix s s.
Proof. exists []. auto. Qed.
Lemma Suffix_trans a b c : Suffix a b -> Suffix b c -> Suffix a c.
Proof. intros [p ->] [q ->]. exists (q ++ p). rewrite app_assoc. auto. Qed.
Lemma Suffix_cons c r s : Suffix r s -> Suffix r (c :: s).
Proof. intros [p ->]. exists (c :: p). auto. Qed.
Lemma Suffix_tail c r s : Suffix (c :: r) s -> Suffix r s.
Proof. intros [p ->]. exists (p ++ [c]). rewrite <- app_assoc. auto. Qed.
Lemma Suffix_length r s : Suffix r s -> List.length r <= List.length s.
Proof. intros [p ->]. rewrite app_length. lia. Qed.
Lemma Suffix_nil s : Suffix [] s.
Proof. exists s. rewrite app_nil_r. auto. Qed.
Global Hint Resolve Suffix_refl Suffix_cons Suffix_nil : suffix.

(** Every comment that begins in [s] ends in [s]. *)
Definition Closed (s : list N) : Prop := forall a b, s = a ++ bN "#" :: b -> In (bN LF) b.
Lemma Closed_suffix r s : Suffix r s -> Closed s -> Closed r.
Proof. intros [p ->] H a b ->. apply (H (p ++ a)). rewrite <- app_assoc. auto. Qed.
Definition okx (x : bool) (s : list N) : Prop := x = true -> Closed s.
Lemma okx_suffix x r s : Suffix r s -> okx x s -> okx x r.
Proof. intros H1 H2 H3. eapply Closed_suffix; eauto. Qed.

Lemma is_true b c : is b c = true -> c = bN b.
Proof. apply N.eqb_eq. Qed.

Ltac inv H := inversion H; subst; clear H.
Ltac fin := eauto with suffix.


(** ** [:name:] *)
Lemma text_until_form stop fuel : forall s name r, text_until false stop fuel s = Some (name, r) ->
  s = name ++ bN stop :: r.
Proof.
  induction fuel as [|fuel IH]; intros s name r H; [discriminate H|]. destruct s as [|c s]; [discriminate H|]. cbn [text_until bump_space] in H.
  destruct (is stop c) eqn:E.
  - inv H. apply is_true in E. subst. reflexivity.
  - destruct (text_until false stop fuel s) as [[t r']|] eqn:E2; [|discriminate H]. inv H. apply IH in E2. subst. reflexivity.
Qed.
Lemma text_until_of stop fuel : forall name r, ~ In (bN stop) name -> List.length name < fuel -> text_until false stop fuel (name ++ bN stop :: r) = Some (name, r).
Proof.
  induction fuel as [|fuel IH]; intros name r H1 H2; [lia|]. destruct name as [|c name]; cbn [app text_until bump_space].
  - unfold is. rewrite N.eqb_refl. reflexivity.
  - destruct (is stop c) eqn:E. { apply is_true in E. subst. destruct H1. left; auto. }
    rewrite IH; auto. intros H. apply H1. right; auto. simpl in H2. lia.
Qed.
Lemma chars_eqb_eq a : forall b, chars_eqb a b = true <-> a = b.
Proof.
  induction a as [|x a IH]; intros [|y b]; cbn [chars_eqb]; try (split; congruence).
  rewrite andb_true_iff, N.eqb_eq, IH. split. intros [-> ->]; auto. intros [= -> ->]; auto.
Qed.
Lemma posix_letters name rs : posix_named name = Some rs -> Forall (fun c => between 0x61 0x7A c = true) name.
Proof.
  unfold posix_named. destruct (find (fun p => chars_eqb (map bN (fst p)) name) posix_classes) as [[n rs']|] eqn:E; [|discriminate]. intros _. apply find_some in E. destruct E as [E1 E2].
  apply chars_eqb_eq in E2. subst name. cbn [fst].
  assert (forallb (fun p : bytes * list (N * N) => forallb (fun c => between 0x61 0x7A c) (map bN (fst p))) posix_classes = true) as H by (vm_compute; reflexivity).
  rewrite forallb_forall in H. apply H in E1. cbn [fst] in E1. rewrite forallb_forall in E1. apply Forall_forall. auto.
Qed.
Lemma posix_form same_letter f s q r : parse_posix same_letter f s = Some (q, r) <->
  exists (neg : bool) name rs, s = bN ":" :: (if neg then [bN "^"] else []) ++ name ++ bN ":" :: bN "]" :: r /\ posix_named name = Some rs
    /\ q = negate neg (fold_class same_letter (f_i f) (in_ranges rs)).
Proof.
  split.
  - unfold parse_posix. destruct s as [|c s1]; [discriminate|]. destruct (is ":" c) eqn:Ec; [|discriminate]. apply is_true in Ec. subst c.
    assert (exists (neg : bool) s2, match s1 with d :: s2 => if is "^" d then (true, s2) else (false, s1) | [] => (false, s1) end = (neg, s2)
      /\ s1 = (if neg then [bN "^"] else []) ++ s2) as (neg & s2 & -> & ->).
    { destruct s1 as [|d s2]. { exists false, []. auto. } destruct (is "^" d) eqn:Ed.
      - apply is_true in Ed. subst. exists true, s2. auto.
      - exists false, (d :: s2). auto. }
    destruct (text_until false ":" _ s2) as [[name [|d s3]]|] eqn:E; try discriminate. apply text_until_form in E. subst s2.
    destruct (is "]" d) eqn:Ed; [|discriminate]. apply is_true in Ed. subst d. destruct (posix_named name) as [rs|] eqn:En; [|discriminate].
    intros [= <- <-]. exists neg, name, rs. auto.
  - intros (neg & name & rs & -> & Hn & ->). pose proof (posix_letters _ Hn) as Hl. rewrite Forall_forall in Hl.
    unfold parse_posix. change (is ":" (bN ":")) with true. cbv iota.
    assert (match (if neg then [bN "^"] else []) ++ name ++ bN ":" :: bN "]" :: r with d :: s2 => if is "^" d then (true, s2) else (false, (if neg then [bN "^"] else []) ++ name ++ bN ":" :: bN "]" :: r)
      | [] => (false, (if neg then [bN "^"] else []) ++ name ++ bN ":" :: bN "]" :: r) end = (neg, name ++ bN ":" :: bN "]" :: r)) as ->.
    { destruct neg; [reflexivity|]. cbn [app]. destruct name as [|d name]; [reflexivity|]. cbn [app].
      destruct (is "^" d) eqn:E; auto. apply is_true in E. subst d. specialize (Hl _ (or_introl eq_refl)). discriminate Hl. }
    rewrite text_until_of.
    + change (is "]" (bN "]")) with true. cbv iota. rewrite Hn. reflexivity.
    + intros H. apply Hl in H. discriminate H.
    + rewrite app_length. simpl. lia.
Qed.

(** ** Comments *)
(** The expression contains "(?", and, among the flags that follow, an x. *)
Definition flag_char (c : N) : bool := is_some_of "imsURx-" c.
Definition Turns_on_x (s : list N) : Prop :=
  exists a fl b, s = a ++ bN "(" :: bN "?" :: fl ++ b /\ In (bN "x") fl /\ Forall (fun c => flag_char c = true) fl.
(** No comment runs over the end of [s]. *)
Definition Safe (f : flags) (s : list N) : Prop := Closed s \/ (f_x f = false /\ ~ Turns_on_x s).
Lemma Turns_suffix r s : Suffix r s -> Turns_on_x r -> Turns_on_x s.
Proof. intros [p ->] (a & fl & b & -> & H). exists (p ++ a), fl, b. rewrite <- app_assoc. auto. Qed.
Lemma Safe_suffix f r s : Suffix r s -> Safe f s -> Safe f r.
Proof.
  intros H [H1|[H1 H2]]; [left|right].
  - eapply Closed_suffix; eauto.
  - split; auto. intros H3. apply H2. eapply Turns_suffix; eauto.
Qed.
Lemma Safe_okx f s : Safe f s -> okx (f_x f) s.
Proof. intros [H|[H _]] H2; [exact H|congruence]. Qed.
Lemma parse_flags_x s : forall f on seen b f' r, parse_flags s f on seen = Some (b, f', r) -> f_x f = false -> f_x f' = true ->
  exists fl b', s = fl ++ b' /\ In (bN "x") fl /\ Forall (fun c => flag_char c = true) fl.
Proof.
  induction s as [|c s IH]; intros f on seen b f' r H H1 H2; [discriminate H|]. cbn [parse_flags] in H.
  destruct (is ":" c || is ")" c).
  - destruct seen as [|d seen].
    + destruct (is ":" c); [|discriminate H]. inv H. congruence.
    + destruct (is "-" d); [discriminate H|]. inv H. congruence.
  - destruct (existsb (N.eqb c) seen); [discriminate H|]. destruct (is "-" c) eqn:Ed.
    + apply IH in H; auto. destruct H as (fl & b' & -> & H3 & H4). apply is_true in Ed. subst. exists (bN "-" :: fl), b'. repeat split; auto. right; auto.
    + destruct (set_flag c on f) as [f1|] eqn:Es; [|discriminate H]. destruct (is "x" c) eqn:Ex.
      * apply is_true in Ex. subst. exists [bN "x"], s. repeat split; auto. left; auto.
      * assert (f_x f1 = false /\ flag_char c = true) as [H3 H4].
        { unfold set_flag in Es. unfold flag_char, is_some_of. cbn [B existsb String.list_byte_of_string].
          unfold B. cbn -[is]. rewrite Ex in Es.
          destruct (is "i" c); [inv Es; auto|]. destruct (is "m" c); [inv Es; auto|]. destruct (is "s" c); [inv Es; auto|].
          destruct (is "U" c); [inv Es; auto|]. destruct (is "R" c); [inv Es; auto|]. discriminate Es. }
        apply IH in H; auto. destruct H as (fl & b' & -> & H5 & H6). exists (c :: fl), b'. repeat split; auto. right; auto.
Qed.

Section Compose.
  Variable y : list N.
  Notation tl := (bN ")" :: y).

  Lemma skip_blank_ext s : forall c, (c = true -> In (bN LF) s) -> Closed s -> skip_blank c (s ++ tl) = skip_blank c s ++ tl.
  Proof.
    induction s as [|d s IH]; intros c H1 H2.
    - destruct c; [destruct (H1 eq_refl)|]. reflexivity.
    - assert (Closed s) as H3 by (eapply Closed_suffix; [|eassumption]; fin).
      cbn [app skip_blank]. destruct c.
      + apply IH; auto. intros H. destruct (H1 eq_refl) as [->|H4]; auto. discriminate H.
      + destruct (white_space d); [apply IH; auto; discriminate|].
        destruct (is "#" d) eqn:E; [|reflexivity]. apply IH; auto. intros _. apply is_true in E. subst. apply (H2 []). auto.
  Qed.
  Lemma skip_blank_suffix s : forall c, Suffix (skip_blank c s) s.
  Proof.
    induction s as [|d s IH]; intros c; cbn [skip_blank]. fin.
    destruct c; [fin|]. destruct (white_space d); [fin|]. destruct (is "#" d); fin.
  Qed.
  Lemma bump_ext x s : okx x s -> bump_space x (s ++ tl) = bump_space x s ++ tl.
  Proof. intros H. destruct x; simpl; auto. apply skip_blank_ext. discriminate. apply H; auto. Qed.
  Lemma bump_suffix x s : Suffix (bump_space x s) s.
  Proof. destruct x; simpl. apply skip_blank_suffix. fin. Qed.
  Lemma bump_length x s : List.length (bump_space x s) <= List.length s.
  Proof. apply Suffix_length, bump_suffix. Qed.
  Lemma okx_bump x s : okx x s -> okx x (bump_space x s).
  Proof. apply okx_suffix, bump_suffix. Qed.
  Lemma okx_cons x c s : okx x (c :: s) -> okx x s.
  Proof. apply okx_suffix. fin. Qed.
  Hint Resolve okx_bump okx_cons : suffix.

  Lemma hex_digits_ext x n : forall s acc a r, okx x s -> hex_digits x n s acc = Some (a, r) ->
    Suffix r s /\ hex_digits x n (s ++ tl) acc = Some (a, r ++ tl).
  Proof.
    induction n as [|n IH]; intros s acc a r Hx H; cbn [hex_digits] in *.
    - inv H. fin.
    - destruct s as [|c s]; [discriminate H|]. cbn [app]. destruct (hex_digit c); [|discriminate H].
      rewrite bump_ext by fin. apply IH in H; [|fin]. destruct H as [H1 H2]. split; auto.
      apply Suffix_cons. eapply Suffix_trans; eauto. apply bump_suffix.
  Qed.
  Lemma hex_brace_ext x fuel : forall fuel' s k acc a r, fuel <= fuel' -> okx x s -> hex_brace x fuel s k acc = Some (a, r) ->
    Suffix r s /\ hex_brace x fuel' (s ++ tl) k acc = Some (a, r ++ tl).
  Proof.
    induction fuel as [|fuel IH]; intros fuel' s k acc a r Hf Hx H; [discriminate H|].
    destruct fuel' as [|fuel']; [lia|]. destruct s as [|c s]; [discriminate H|]. cbn [hex_brace app] in *.
    destruct (is "}" c).
    - destruct (k =? 0); [discriminate H|]. inv H. rewrite bump_ext by fin. split; auto. apply Suffix_cons, bump_suffix.
    - destruct (hex_digit c); [|discriminate H]. rewrite bump_ext by fin. apply (IH fuel') in H; [|lia|fin].
      destruct H as [H1 H2]. split; auto. apply Suffix_cons. eapply Suffix_trans; eauto. apply bump_suffix.
  Qed.
  Lemma text_until_ext x stop fuel : forall fuel' s a r, fuel <= fuel' -> okx x s -> text_until x stop fuel s = Some (a, r) ->
    Suffix r s /\ text_until x stop fuel' (s ++ tl) = Some (a, r ++ tl).
  Proof.
    induction fuel as [|fuel IH]; intros fuel' s a r Hf Hx H; [discriminate H|].
    destruct fuel' as [|fuel']; [lia|]. destruct s as [|c s]; [discriminate H|]. cbn [text_until app] in *.
    destruct (is stop c).
    - inv H. fin.
    - destruct (text_until x stop fuel (bump_space x s)) as [[t r']|] eqn:E; [|discriminate H]. inv H.
      rewrite bump_ext by fin. apply (IH fuel') in E; [|lia|fin].
      destruct E as [H1 H2]. rewrite H2. split; auto. apply Suffix_cons. eapply Suffix_trans; eauto. apply bump_suffix.
  Qed.
  Lemma parse_hex_ext x n s p r : okx x s -> parse_hex x n s = Some (p, r) ->
    Suffix r s /\ parse_hex x n (s ++ tl) = Some (p, r ++ tl).
  Proof.
    intros Hx. unfold parse_hex. rewrite bump_ext by auto. pose proof (bump_suffix x s) as HS. pose proof (okx_bump Hx) as Hx2.
    destruct (bump_space x s) as [|c s1]; [discriminate|]. cbn [app].
    destruct (is "{" c).
    - rewrite bump_ext by fin.
      destruct (hex_brace x (List.length s) (bump_space x s1) 0 0) as [[v r']|] eqn:E; [|discriminate].
      apply (hex_brace_ext (fuel' := List.length (s ++ tl))) in E; [|rewrite app_length; lia|fin]. destruct E as [E1 E2]. rewrite E2.
      destruct (is_scalar v); [|discriminate]. intros [= <- <-]. split; auto.
      eapply Suffix_trans; [|eassumption]. apply Suffix_cons. eapply Suffix_trans; eauto. apply bump_suffix.
    - destruct (hex_digits x n (c :: s1) 0) as [[v r']|] eqn:E; [|discriminate].
      apply hex_digits_ext in E; [|fin]. destruct E as [E1 E2]. cbn [app] in E2. rewrite E2.
      destruct (is_scalar v); [|discriminate]. intros [= <- <-]. split; auto. eapply Suffix_trans; eauto.
  Qed.

  Lemma skip_white_ext s : Suffix (skip_white s) s /\ skip_white (s ++ tl) = skip_white s ++ tl.
  Proof.
    induction s as [|c s [IH1 IH2]]; cbn [skip_white app]. split; [fin|reflexivity].
    destruct (white_space c); [|split; fin]. split; fin.
  Qed.
  Lemma digits_loop_ext x fuel : forall fuel' s k acc k2 n r, List.length s <= fuel -> List.length (s ++ tl) <= fuel' -> okx x s ->
    digits_loop x fuel s k acc = (k2, n, r) -> Suffix r s /\ digits_loop x fuel' (s ++ tl) k acc = (k2, n, r ++ tl).
  Proof.
    induction fuel as [|fuel IH]; intros fuel' s k acc k2 n r Hf Hf' Hx H.
    - destruct s; [|simpl in Hf; lia]. inv H. split; [fin|]. destruct fuel'; reflexivity.
    - destruct fuel' as [|fuel']; [simpl in Hf'; rewrite app_length in Hf'; simpl in Hf'; lia|].
      destruct s as [|c s]. { inv H. split; [fin|]. reflexivity. }
      cbn [digits_loop app] in *. destruct (between 48 57 c).
      + rewrite bump_ext by fin. simpl in Hf, Hf'. rewrite app_length in Hf'. simpl in Hf'. pose proof (bump_length x s).
        apply (IH fuel') in H; [|lia|rewrite app_length; simpl; lia|fin]. destruct H as [H1 H2]. split; auto.
        apply Suffix_cons. eapply Suffix_trans; eauto. apply bump_suffix.
      + inv H. fin.
  Qed.
  Lemma skip_white_x_ext x fuel : forall fuel' s, List.length s <= fuel -> List.length (s ++ tl) <= fuel' -> okx x s ->
    Suffix (skip_white_x x fuel s) s /\ skip_white_x x fuel' (s ++ tl) = skip_white_x x fuel s ++ tl.
  Proof.
    induction fuel as [|fuel IH]; intros fuel' s Hf Hf' Hx.
    - destruct s; [|simpl in Hf; lia]. split; [fin|]. destruct fuel'; reflexivity.
    - destruct fuel' as [|fuel']; [rewrite app_length in Hf'; simpl in Hf'; lia|].
      destruct s as [|c s]. { split; [fin|]. reflexivity. }
      cbn [skip_white_x app] in *. destruct (white_space c).
      + rewrite bump_ext by fin. simpl in Hf, Hf'. rewrite app_length in Hf'. simpl in Hf'. pose proof (bump_length x s).
        destruct (IH fuel' (bump_space x s)) as [H1 H2]; [lia|rewrite app_length; simpl; lia|fin|]. split; auto.
        apply Suffix_cons. eapply Suffix_trans; eauto. apply bump_suffix.
      + fin.
  Qed.
  Lemma parse_decimal_ext x s n r : okx x s -> parse_decimal x s = Some (n, r) ->
    Suffix r s /\ parse_decimal x (s ++ tl) = Some (n, r ++ tl).
  Proof.
    intros Hx. unfold parse_decimal. destruct (skip_white_ext s) as [H1 H2]. rewrite H2. pose proof (okx_suffix H1 Hx) as Hx1.
    destruct (digits_loop x _ (skip_white s) 0 0) as [[k v] s2] eqn:E.
    apply (digits_loop_ext (fuel' := List.length (skip_white s ++ tl))) in E; auto. destruct E as [E1 E2]. rewrite E2.
    destruct ((k =? 0) || (2 ^ 32 <=? v)%N); [discriminate|]. intros [= <- <-].
    destruct (@skip_white_x_ext x (List.length s2) (List.length (s2 ++ tl)) s2) as [H3 H4]; auto. eapply okx_suffix; eauto.
    rewrite H4. split; auto. eapply Suffix_trans; [exact H3|]. eapply Suffix_trans; eauto.
  Qed.
  Lemma parse_counts_ext x s m n r : okx x s -> parse_counts x s = Some (m, n, r) ->
    Suffix r s /\ parse_counts x (s ++ tl) = Some (m, n, r ++ tl).
  Proof.
    intros Hx. unfold parse_counts. rewrite bump_ext by auto.
    destruct (parse_decimal x (bump_space x s)) as [[m' [|c s1]]|] eqn:E; try discriminate.
    apply parse_decimal_ext in E; [|fin]. destruct E as [E1 E2]. rewrite E2. cbn [app].
    assert (Suffix (c :: s1) s) as HS by (eapply Suffix_trans; [eassumption|apply bump_suffix]).
    assert (okx x s1) as Hx1 by (eapply okx_suffix; [eapply Suffix_tail; eassumption|assumption]).
    destruct (is "}" c).
    - intros [= <- <- <-]. rewrite bump_ext by auto. split; auto. eapply Suffix_trans; [apply bump_suffix|]. eapply Suffix_tail; eauto.
    - destruct (is "," c); [|discriminate]. rewrite bump_ext by auto.
      pose proof (Suffix_trans (bump_suffix x s1) (Suffix_tail HS)) as HS2. pose proof (okx_bump Hx1) as Hx2.
      destruct (bump_space x s1) as [|d s2]; [discriminate|]. cbn [app]. destruct (is "}" d).
      + intros [= <- <- <-]. rewrite bump_ext by fin. split; auto. eapply Suffix_trans; [apply bump_suffix|]. eapply Suffix_tail; eauto.
      + destruct (parse_decimal x (d :: s2)) as [[n' [|e s3]]|] eqn:E; try discriminate.
        apply parse_decimal_ext in E; [|fin]. destruct E as [E3 E4]. cbn [app] in E4. rewrite E4. cbn [app].
        destruct (is "}" e && (m' <=? n')); [|discriminate]. intros [= <- <- <-].
        pose proof (Suffix_trans E3 HS2) as HS3. rewrite bump_ext by (eapply okx_suffix; [eapply Suffix_tail; eassumption|assumption]).
        split; auto. eapply Suffix_trans; [apply bump_suffix|]. eapply Suffix_tail; eauto.
  Qed.
  Lemma parse_greedy_ext s g r : parse_greedy s = (g, r) -> Suffix r s /\ parse_greedy (s ++ tl) = (g, r ++ tl).
  Proof.
    destruct s as [|c s]; cbn [parse_greedy app].
    - intros [= <- <-]. split; [fin|reflexivity].
    - destruct (is "?" c); intros [= <- <-]; fin.
  Qed.
  Lemma parse_flags_ext s : forall f on seen b f' r, parse_flags s f on seen = Some (b, f', r) ->
    Suffix r s /\ parse_flags (s ++ tl) f on seen = Some (b, f', r ++ tl).
  Proof.
    induction s as [|c s IH]; intros f on seen b f' r H; [discriminate H|]. cbn [parse_flags app] in *.
    destruct (is ":" c || is ")" c).
    - destruct seen as [|d seen].
      + destruct (is ":" c); [|discriminate H]. inv H. fin.
      + destruct (is "-" d); [discriminate H|]. inv H. fin.
    - destruct (existsb (N.eqb c) seen); [discriminate H|]. destruct (is "-" c).
      + apply IH in H. destruct H. split; fin.
      + destruct (set_flag c on f); [|discriminate H]. apply IH in H. destruct H. split; fin.
  Qed.

  Section Oracles.
    Variable same_letter : N -> list N.
    Variables (unicode_digit unicode_word : N -> bool).
    Variable unicode_class : list N -> option (N -> bool).
    Variables (alphabetic alphanumeric : N -> bool).

    Lemma parse_boundary_ext x s p r : okx x s -> parse_boundary unicode_word x s = Some (p, r) ->
      Suffix r s /\ parse_boundary unicode_word x (s ++ tl) = Some (p, r ++ tl).
    Proof.
      intros Hx. unfold parse_boundary. destruct s as [|c s1].
      - intros [= <- <-]. split; [fin|reflexivity].
      - cbn [app]. destruct (is "{" c) eqn:Ec; [|intros [= <- <-]; split; [fin|reflexivity]].
        rewrite bump_ext by fin. pose proof (bump_suffix x s1) as HS.
        assert (okx x (bump_space x s1)) as Hx1 by fin.
        destruct (bump_space x s1) as [|d s2]; [discriminate|]. cbn [app].
        destruct (in_word_kind d); [|intros [= <- <-]; split; [fin|reflexivity]].
        destruct (text_until x "}" _ (d :: s2)) as [[name rest]|] eqn:E; [|discriminate].
        apply (@text_until_ext _ _ _ (S (List.length (s2 ++ tl)))) in E; [|rewrite app_length; lia|fin].
        destruct E as [E1 E2]. cbn [app] in E2. rewrite E2.
        assert (Suffix rest (c :: s1)) by (apply Suffix_cons; eapply Suffix_trans; eauto).
        repeat (match goal with |- context [if chars_eqb name ?n then _ else _] => destruct (chars_eqb name n) end; [intros [= <- <-]; auto|]).
        discriminate.
    Qed.
    Lemma parse_unicode_class_ext f neg s p r : okx (f_x f) s -> parse_unicode_class same_letter unicode_class f neg s = Some (p, r) ->
      Suffix r s /\ parse_unicode_class same_letter unicode_class f neg (s ++ tl) = Some (p, r ++ tl).
    Proof.
      intros Hx. unfold parse_unicode_class. rewrite bump_ext by auto. pose proof (bump_suffix (f_x f) s) as HS.
      assert (okx (f_x f) (bump_space (f_x f) s)) as Hx1 by fin.
      destruct (bump_space (f_x f) s) as [|c s1]; [discriminate|]. cbn [app].
      destruct (is "{" c).
      - rewrite bump_ext by fin. destruct (text_until (f_x f) "}" _ _) as [[name rest]|] eqn:E; [|discriminate].
        apply (@text_until_ext _ _ _ (List.length (s1 ++ tl))) in E; [|rewrite app_length; lia|fin]. destruct E as [E1 E2]. rewrite E2.
        destruct (unicode_class name); [|discriminate]. intros [= <- <-]. split; auto.
        eapply Suffix_trans; [|exact HS]. apply Suffix_cons. eapply Suffix_trans; eauto. apply bump_suffix.
      - destruct (is "\" c); [discriminate|]. rewrite bump_ext by fin. destruct (unicode_class [c]); [|discriminate].
        intros [= <- <-]. split; auto. eapply Suffix_trans; [|exact HS]. apply Suffix_cons. apply bump_suffix.
    Qed.
    Notation p_escape := (parse_escape same_letter unicode_digit unicode_word unicode_class).
    Lemma parse_escape_ext f s p r : okx (f_x f) s -> p_escape f s = Some (p, r) -> Suffix r s /\ p_escape f (s ++ tl) = Some (p, r ++ tl).
    Proof.
      intros Hx. unfold parse_escape. destruct s as [|c s]; [discriminate|]. cbn [app]. pose proof (okx_cons Hx) as Hx1.
      assert (forall n, parse_hex (f_x f) n s = Some (p, r) -> Suffix r (c :: s) /\ parse_hex (f_x f) n (s ++ tl) = Some (p, r ++ tl)) as Hh.
      { intros n H. apply parse_hex_ext in H; auto. destruct H. split; fin. }
      do 3 (match goal with |- context [if is ?b c then _ else _] => destruct (is b c) end; [apply Hh|]).
      do 2 (match goal with |- context [if is ?b c then _ else _] => destruct (is b c) end;
        [intros H; apply parse_unicode_class_ext in H; auto; destruct H; split; fin|]).
      do 14 (match goal with |- context [if is ?b c then _ else _] => destruct (is b c) end; [intros [= <- <-]; split; fin|]).
      destruct (is "b" c). { intros H; apply parse_boundary_ext in H; auto; destruct H; split; fin. }
      do 3 (match goal with |- context [if is ?b c then _ else _] => destruct (is b c) end; [intros [= <- <-]; split; fin|]).
      match goal with |- (if ?b then _ else _) = _ -> _ => destruct b end; [discriminate|]. intros [= <- <-]; split; fin.
    Qed.
    Notation c_prim := (class_prim same_letter unicode_digit unicode_word unicode_class).
    Lemma class_prim_ext f s p r : okx (f_x f) s -> c_prim f s = Some (p, r) -> Suffix r s /\ c_prim f (s ++ tl) = Some (p, r ++ tl).
    Proof.
      intros Hx. destruct s as [|c s]; [discriminate|]. cbn [class_prim app]. destruct (is "\" c).
      - intros H. apply parse_escape_ext in H; [|fin]. destruct H. split; fin.
      - intros [= <- <-]. split; fin.
    Qed.

    (** ** Classes *)
    Notation p_posix := (parse_posix same_letter).
    Notation c_range := (class_range same_letter unicode_digit unicode_word unicode_class).
    Notation c_items := (class_items same_letter unicode_digit unicode_word unicode_class).
    Notation p_class := (parse_class same_letter unicode_digit unicode_word unicode_class).

    Lemma posix_ext f s q r : p_posix f s = Some (q, r) -> Suffix r s /\ p_posix f (s ++ tl) = Some (q, r ++ tl).
    Proof.
      intros H. apply posix_form in H. destruct H as (neg & name & rs & -> & Hn & ->). split.
      - exists (bN ":" :: (if neg then [bN "^"] else []) ++ name ++ [bN ":"; bN "]"]). cbn [app]. rewrite <- !app_assoc. reflexivity.
      - apply posix_form. exists neg, name, rs. split; auto. cbn [app]. rewrite <- !app_assoc. reflexivity.
    Qed.
    Lemma posix_none f s : p_posix f s = None -> In (bN "]") s -> p_posix f (s ++ tl) = None.
    Proof.
      intros H1 H2. destruct (p_posix f (s ++ tl)) as [[q r]|] eqn:E; auto. exfalso.
      apply posix_form in E. destruct E as (neg & name & rs & E & Hn & ->).
      set (front := bN ":" :: (if neg then [bN "^"] else []) ++ name ++ [bN ":"]) in *.
      assert (s ++ tl = front ++ bN "]" :: r) as E'.
      { rewrite E. unfold front. destruct neg; cbn [app]; rewrite <- !app_assoc; reflexivity. }
      assert (~ In (bN "]") front) as Hf.
      { unfold front. cbn [In]. rewrite !in_app_iff. intros [H|[H|[H|H]]].
        - discriminate H.
        - destruct neg; [|destruct H]. destruct H as [H|[]]. discriminate H.
        - pose proof (posix_letters _ Hn) as Hl. rewrite Forall_forall in Hl. apply Hl in H. discriminate H.
        - destruct H as [H|[]]. discriminate H. }
      apply app_eq_app in E'. destruct E' as (l & [[E1 E2]|[E1 E2]]).
      - destruct l as [|c l].
        + rewrite app_nil_r in E1. subst s. apply Hf. exact H2.
        + cbn [app] in E2. injection E2 as <- E2. subst s.
          assert (p_posix f (front ++ bN "]" :: l) = Some (negate neg (fold_class same_letter (f_i f) (in_ranges rs)), l)) as E3.
          { apply posix_form. exists neg, name, rs. split; auto. unfold front. destruct neg; cbn [app]; rewrite <- !app_assoc; reflexivity. }
          change 93%N with (bN "]") in H1. rewrite E3 in H1. discriminate H1.
      - apply Hf. rewrite E1. apply in_app_iff. auto.
    Qed.

    Lemma class_dashes_ext x fuel : forall fuel' s d r, List.length s <= fuel -> List.length (s ++ tl) <= fuel' -> okx x s ->
      class_dashes x fuel s = (d, r) -> Suffix r s /\ class_dashes x fuel' (s ++ tl) = (d, r ++ tl).
    Proof.
      induction fuel as [|fuel IH]; intros fuel' s d r Hf Hf' Hx H.
      - destruct s; [|simpl in Hf; lia]. inv H. split; [fin|]. destruct fuel'; reflexivity.
      - destruct fuel' as [|fuel']; [rewrite app_length in Hf'; simpl in Hf'; lia|].
        destruct s as [|c s]. { inv H. split; [fin|]. reflexivity. }
        cbn [class_dashes app] in *. destruct (is "-" c).
        + destruct (class_dashes x fuel (bump_space x s)) as [d' r'] eqn:E. inv H.
          rewrite bump_ext by fin. simpl in Hf, Hf'. rewrite app_length in Hf'. simpl in Hf'. pose proof (bump_length x s).
          apply (IH fuel') in E; [|lia|rewrite app_length; simpl; lia|fin]. destruct E as [H1 H2]. rewrite H2. split; auto.
          apply Suffix_cons. eapply Suffix_trans; eauto. apply bump_suffix.
        + inv H. fin.
    Qed.
    Lemma class_open_ext f s neg p r : okx (f_x f) s -> class_open f s = (neg, p, r) ->
      Suffix r s /\ class_open f (s ++ tl) = (neg, p, r ++ tl).
    Proof.
      intros Hx. unfold class_open. rewrite bump_ext by auto. pose proof (bump_suffix (f_x f) s) as HS.
      assert (okx (f_x f) (bump_space (f_x f) s)) as Hx1 by fin. set (s0 := bump_space (f_x f) s) in *. clearbody s0.
      assert (exists neg1 s1, match s0 with c :: s1 => if is "^" c then (true, bump_space (f_x f) s1) else (false, s0) | [] => (false, s0) end = (neg1, s1)
        /\ match s0 ++ tl with c :: s1 => if is "^" c then (true, bump_space (f_x f) s1) else (false, s0 ++ tl) | [] => (false, s0 ++ tl) end = (neg1, s1 ++ tl)
        /\ Suffix s1 s0) as (neg1 & s1 & E1 & E2 & HS1).
      { destruct s0 as [|c s1]. { exists false, []. repeat split; fin. }
        cbn [app]. destruct (is "^" c). { rewrite bump_ext by fin. do 2 eexists. repeat split. apply Suffix_cons, bump_suffix. }
        do 2 eexists. repeat split. fin. }
      rewrite E1, E2. clear E1 E2.
      destruct (class_dashes (f_x f) (List.length s1) s1) as [d s2] eqn:E.
      apply (@class_dashes_ext _ _ (List.length (s1 ++ tl))) in E; auto. 2: { eapply okx_suffix; eauto. }
      destruct E as [E1 E2]. rewrite E2.
      assert (Suffix s2 s) as HS2 by (eapply Suffix_trans; [eassumption|]; eapply Suffix_trans; eassumption).
      destruct s2 as [|c s3].
      - intros [= <- <- <-]. split; [fin|]. cbn [app]. rewrite andb_false_r. reflexivity.
      - cbn [app]. destruct (negb d && is "]" c).
        + intros [= <- <- <-]. rewrite bump_ext by (eapply okx_suffix; [eapply Suffix_tail; exact HS2|exact Hx]). split; auto.
          eapply Suffix_trans; [apply bump_suffix|]. eapply Suffix_tail; eauto.
        + intros [= <- <- <-]. split; auto.
    Qed.
    Lemma class_open_suffix f s neg p r : class_open f s = (neg, p, r) -> Suffix r s.
    Proof.
      unfold class_open. pose proof (bump_suffix (f_x f) s) as HS. set (s0 := bump_space (f_x f) s) in *. clearbody s0.
      assert (exists neg1 s1, match s0 with c :: s1 => if is "^" c then (true, bump_space (f_x f) s1) else (false, s0) | [] => (false, s0) end = (neg1, s1)
        /\ Suffix s1 s0) as (neg1 & s1 & E1 & HS1).
      { destruct s0 as [|c s1]. { exists false, []. repeat split; fin. }
        destruct (is "^" c). { do 2 eexists. repeat split. apply Suffix_cons, bump_suffix. }
        do 2 eexists. repeat split. fin. }
      rewrite E1. assert (forall x fuel s d r, class_dashes x fuel s = (d, r) -> Suffix r s) as Hd.
      { clear. induction fuel as [|fuel IH]; intros s d r H; [inv H; fin|]. destruct s as [|c s]; [inv H; fin|]. cbn [class_dashes] in H.
        destruct (is "-" c); [|inv H; fin]. destruct (class_dashes x fuel (bump_space x s)) eqn:E. inv H. apply IH in E.
        apply Suffix_cons. eapply Suffix_trans; eauto. apply bump_suffix. }
      destruct (class_dashes (f_x f) (List.length s1) s1) as [d s2] eqn:E. apply Hd in E.
      assert (Suffix s2 s) as HS2 by (eapply Suffix_trans; [eassumption|]; eapply Suffix_trans; eassumption).
      destruct s2 as [|c s3]; [intros [= <- <- <-]; auto|]. destruct (negb d && is "]" c); intros [= <- <- <-]; auto.
      eapply Suffix_trans; [apply bump_suffix|]. eapply Suffix_tail; eauto.
    Qed.

    (** Blanks up to the end. *)
    Lemma bump_nil_head x c s : bump_space x (c :: s) = [] -> is "-" c = false.
    Proof.
      destruct x; [|discriminate]. cbn [bump_space skip_blank]. destruct (white_space c) eqn:E.
      - intros _. destruct (is "-" c) eqn:E2; auto. apply is_true in E2. subst c. discriminate E.
      - destruct (is "#" c) eqn:E3; [|discriminate]. intros _. apply is_true in E3. subst c. reflexivity.
    Qed.
    Lemma class_dash_end f fuel s s2 d pending p : bump_space (f_x f) s = d :: s2 -> is "-" d = true -> bump_space (f_x f) s2 = [] ->
      c_items f fuel s pending p = None.
    Proof.
      intros H1 H2 H3. destruct fuel as [|fuel]; auto. cbn [class_items]. rewrite H1. apply is_true in H2. subst d.
      change (is "]" (bN "-")) with false. change (is "[" (bN "-")) with false. cbv iota.
      assert (parse_op (bN "-" :: s2) = None) as ->.
      { destruct s2 as [|c s2]; auto. unfold parse_op. change (is "&" (bN "-")) with false. change (is "~" (bN "-")) with false.
        rewrite (bump_nil_head _ _ _ H3). reflexivity. }
      unfold class_range. cbn [class_prim]. change (is "\" (bN "-")) with false. cbv iota. rewrite H3. reflexivity.
    Qed.
    Lemma class_range_ext f s q r fuel pending p a : okx (f_x f) s -> c_range f s = Some (q, r) -> c_items f fuel r pending p = Some a ->
      Suffix r s /\ c_range f (s ++ tl) = Some (q, r ++ tl).
    Proof.
      intros Hx H Hi. unfold class_range in *. destruct (c_prim f s) as [[p1 s1]|] eqn:E; [|discriminate H].
      apply class_prim_ext in E; auto. destruct E as [E1 E2]. rewrite E2. pose proof (okx_suffix E1 Hx) as Hx1.
      rewrite bump_ext by auto. pose proof (bump_suffix (f_x f) s1) as HS. pose proof (okx_bump Hx1) as Hx2.
      destruct (bump_space (f_x f) s1) as [|d s2] eqn:Eb; [discriminate H|]. cbn [app]. rewrite bump_ext by fin.
      pose proof (bump_suffix (f_x f) s2) as HS2. pose proof (okx_bump (okx_cons Hx2)) as Hx3.
      assert (match p1 with PChar c => Some (N.eqb c, s1) | PClass p => Some (p, s1) | PLook _ => None end = Some (q, r) ->
        Suffix r s /\ match p1 with PChar c => Some (N.eqb c, s1 ++ tl) | PClass p => Some (p, s1 ++ tl) | PLook _ => None end = Some (q, r ++ tl) /\ r = s1) as Hs.
      { destruct p1; intros [= <- <-]; auto. }
      destruct (bump_space (f_x f) s2) as [|c s3] eqn:Eb2.
      - apply Hs in H. destruct H as (H1 & H2 & ->). split; auto. cbn [app].
        destruct (is "-" d) eqn:Ed; [|exact H2].
        erewrite class_dash_end in Hi by eassumption. discriminate Hi.
      - cbn [app]. destruct (is "-" d && negb (is "]" c || is "-" c)); [|apply Hs in H; tauto].
        destruct p1 as [lo| |]; try discriminate H.
        destruct (c_prim f (c :: s3)) as [[p2 s4]|] eqn:E; [|discriminate H]. apply class_prim_ext in E; auto. destruct E as [E3 E4].
        cbn [app] in E4. rewrite E4. destruct p2 as [hi| |]; try discriminate H. destruct (lo <=? hi)%N; [|discriminate H]. inv H.
        split; auto. eapply Suffix_trans; [exact E3|]. eapply Suffix_trans; [exact HS2|]. eapply Suffix_trans; [|exact E1]. eapply Suffix_tail; exact HS.
    Qed.


    Lemma parse_op_suffix s op r : parse_op s = Some (op, r) -> Suffix r s /\ parse_op (s ++ tl) = Some (op, r ++ tl).
    Proof.
      unfold parse_op. destruct s as [|a [|b s]]; try discriminate. cbn [app].
      repeat match goal with |- context [if ?b then _ else _] => destruct b end; intros [= <- <-]; fin.
    Qed.
    Lemma parse_op_none s : s <> [] -> parse_op s = None -> parse_op (s ++ tl) = None.
    Proof.
      unfold parse_op. destruct s as [|a [|b s]]; cbn [app]; intros H1 H2; [congruence| |].
      2: { repeat match goal with |- context [if ?b then _ else _] => destruct b end; try discriminate H2; reflexivity. }
      change (is "&" (bN ")")) with false. change (is "-" (bN ")")) with false. change (is "~" (bN ")")) with false.
      rewrite !andb_false_r. reflexivity.
    Qed.
    Lemma in_suffix (c : N) r s : Suffix r s -> In c r -> In c s.
    Proof. intros [p ->] H. apply in_app_iff. auto. Qed.
    Lemma range_suffix f s q r : okx (f_x f) s -> c_range f s = Some (q, r) -> Suffix r s.
    Proof.
      intros Hx H. unfold class_range in *. destruct (c_prim f s) as [[p1 s1]|] eqn:E; [|discriminate H].
      apply class_prim_ext in E; auto. destruct E as [E1 _]. pose proof (okx_suffix E1 Hx) as Hx1.
      pose proof (bump_suffix (f_x f) s1) as HS. pose proof (okx_bump Hx1) as Hx2.
      destruct (bump_space (f_x f) s1) as [|d s2] eqn:Eb; [discriminate H|].
      pose proof (bump_suffix (f_x f) s2) as HS2. pose proof (okx_bump (okx_cons Hx2)) as Hx3.
      assert (match p1 with PChar c => Some (N.eqb c, s1) | PClass p => Some (p, s1) | PLook _ => None end = Some (q, r) -> Suffix r s) as Hs.
      { destruct p1; intros [= <- <-]; auto. }
      destruct (bump_space (f_x f) s2) as [|c s3] eqn:Eb2; auto.
      destruct (is "-" d && negb (is "]" c || is "-" c)); auto. destruct p1 as [lo| |]; try discriminate H.
      destruct (c_prim f (c :: s3)) as [[p2 s4]|] eqn:E; [|discriminate H]. apply class_prim_ext in E; auto. destruct E as [E3 E4].
      destruct p2 as [hi| |]; try discriminate H. destruct (lo <=? hi)%N; [|discriminate H]. inv H.
      eapply Suffix_trans; [exact E3|]. eapply Suffix_trans; [exact HS2|]. eapply Suffix_trans; [|exact E1]. eapply Suffix_tail; exact HS.
    Qed.

    Lemma class_items_in f fuel : forall s pending p a, okx (f_x f) s -> c_items f fuel s pending p = Some a ->
      In (bN "]") s /\ Suffix (snd a) s.
    Proof.
      induction fuel as [|fuel IH]; intros s pending p a Hx H; [discriminate H|]. cbn [class_items] in H.
      pose proof (bump_suffix (f_x f) s) as HS. pose proof (okx_bump Hx) as Hx1. destruct (bump_space (f_x f) s) as [|c s'] eqn:Eb; [discriminate H|].
      assert (forall r, Suffix r (c :: s') -> In (bN "]") r /\ Suffix (snd a) r -> In (bN "]") s /\ Suffix (snd a) s) as Hin.
      { intros r Hr [H1 H2]. split. eapply in_suffix; [|exact H1]. eapply Suffix_trans; eauto. eapply Suffix_trans; [eassumption|]. eapply Suffix_trans; eassumption. }
      destruct (is "]" c) eqn:E1. { inv H. apply is_true in E1. subst. cbn [snd]. split. eapply in_suffix; [exact HS|]. left; auto. eapply Suffix_tail; eauto. }
      destruct (is "[" c).
      - destruct (p_posix f s') as [[q s1]|] eqn:E.
        + apply posix_ext in E. destruct E as [E _]. apply (Hin s1); [fin|]. eapply IH; [|exact H]. eapply okx_suffix; [|exact Hx1]. fin.
        + destruct (class_open f s') as [[neg first] s1] eqn:E2. apply class_open_suffix in E2.
          assert (okx (f_x f) s1) as Hx2 by (eapply okx_suffix; [|exact Hx1]; fin).
          destruct (c_items f fuel s1 None first) as [[q s2]|] eqn:E3; [|discriminate H]. apply IH in E3; auto. destruct E3 as [E3 E4]. cbn [snd] in E4.
          assert (Suffix s2 (c :: s')) as HS2 by (apply Suffix_cons; eapply Suffix_trans; eauto).
          apply (Hin s2); auto. eapply IH; [|exact H]. eapply okx_suffix; eauto.
      - destruct (parse_op (c :: s')) as [[op s1]|] eqn:E.
        + apply parse_op_suffix in E. destruct E as [E _]. apply (Hin s1); auto. eapply IH; [|exact H]. eapply okx_suffix; eauto.
        + destruct (c_range f (c :: s')) as [[q s1]|] eqn:E2; [|discriminate H]. apply range_suffix in E2; auto.
          apply (Hin s1); auto. eapply IH; [|exact H]. eapply okx_suffix; eauto.
    Qed.

    Lemma class_items_ext f fuel : forall fuel' s pending p q r, fuel <= fuel' -> okx (f_x f) s -> c_items f fuel s pending p = Some (q, r) ->
      c_items f fuel' (s ++ tl) pending p = Some (q, r ++ tl).
    Proof.
      induction fuel as [|fuel IH]; intros fuel' s pending p q r Hf Hx H; [discriminate H|].
      destruct fuel' as [|fuel']; [lia|]. assert (fuel <= fuel') as Hf' by lia. pose proof (class_items_in _ _ _ _ Hx H) as [Hin _]. cbn [class_items] in *.
      rewrite bump_ext by auto.
      pose proof (okx_bump Hx) as Hx1. destruct (bump_space (f_x f) s) as [|c s'] eqn:Eb; [discriminate H|]. cbn [app].
      pose proof (okx_cons Hx1) as Hx2.
      destruct (is "]" c) eqn:E1. { inv H. reflexivity. }
      destruct (is "[" c).
      - destruct (p_posix f s') as [[q1 s1]|] eqn:E.
        + apply posix_ext in E. destruct E as [E E']. rewrite E'. apply IH; auto. eapply okx_suffix; eauto.
        + destruct (class_open f s') as [[neg first] s1] eqn:E2. pose proof (class_open_suffix _ _ E2) as HS1.
          apply class_open_ext in E2; auto. destruct E2 as [_ E2].
          assert (okx (f_x f) s1) as Hx3 by (eapply okx_suffix; [exact HS1|exact Hx2]).
          destruct (c_items f fuel s1 None first) as [[q1 s2]|] eqn:E3; [|discriminate H].
          pose proof (class_items_in _ _ _ _ Hx3 E3) as [Hin1 HS2]. cbn [snd] in HS2.
          rewrite posix_none; auto. 2: { eapply in_suffix; eauto. }
          rewrite E2. rewrite (IH fuel' _ _ _ _ _ Hf' Hx3 E3). apply IH; auto. eapply okx_suffix; [exact HS2|exact Hx3].
      - destruct (parse_op (c :: s')) as [[op s1]|] eqn:E.
        + apply parse_op_suffix in E. destruct E as [E E']. cbn [app] in E'. rewrite E'. apply IH; auto. eapply okx_suffix; eauto.
        + apply parse_op_none in E; [|discriminate]. cbn [app] in E. rewrite E.
          destruct (c_range f (c :: s')) as [[q1 s1]|] eqn:E2; [|discriminate H].
          pose proof (class_range_ext _ _ _ _ Hx1 E2 H) as [HS1 E3]. cbn [app] in E3. rewrite E3. apply IH; auto. eapply okx_suffix; eauto.
    Qed.
    Lemma parse_class_ext f s a r : okx (f_x f) s -> p_class f s = Some (a, r) -> Suffix r s /\ p_class f (s ++ tl) = Some (a, r ++ tl).
    Proof.
      intros Hx. unfold parse_class. destruct (class_open f s) as [[neg first] s1] eqn:E. apply class_open_ext in E; auto. destruct E as [E1 E2].
      rewrite E2. pose proof (okx_suffix E1 Hx) as Hx1.
      destruct (c_items f (S (List.length s)) s1 None first) as [[q s2]|] eqn:E3; [|discriminate]. intros [= <- <-].
      pose proof (class_items_in _ _ _ _ Hx1 E3) as [_ HS]. cbn [snd] in HS.
      rewrite (@class_items_ext f (S (List.length s)) (S (List.length (s ++ tl))) _ _ _ _ _ ltac:(rewrite app_length; lia) Hx1 E3). split; auto. eapply Suffix_trans; eauto.
    Qed.

    (** ** Groups *)
    Notation p_name := (parse_name alphabetic alphanumeric).
    Notation p_named := (parse_named alphabetic alphanumeric).
    Notation o_group := (open_group alphabetic alphanumeric).
    Lemma parse_name_ext : forall s first n r, p_name first s = Some (n, r) -> Suffix r s /\ p_name first (s ++ tl) = Some (n, r ++ tl).
    Proof.
      induction s as [|c s IH]; intros first n r H; [discriminate H|]. cbn [parse_name app] in *.
      destruct (is ">" c). { destruct first; inv H. fin. }
      destruct (name_char alphabetic alphanumeric first c); [|discriminate H].
      destruct (p_name false s) as [[n' r']|] eqn:E; [|discriminate H]. inv H. apply IH in E. destruct E as [E1 ->]. fin.
    Qed.
    Lemma parse_named_ext f names s o r : p_named f names s = Some (o, r) -> Suffix r s /\ p_named f names (s ++ tl) = Some (o, r ++ tl).
    Proof.
      unfold parse_named. destruct (p_name true s) as [[n s1]|] eqn:E; [|discriminate]. apply parse_name_ext in E. destruct E as [E1 ->].
      destruct (existsb (chars_eqb n) names); [discriminate|]. intros [= <- <-]. auto.
    Qed.

    Lemma flags_group_ext f names s o r :
      match parse_flags s f true [] with
      | Some (true, f', s3) => Some (Group f' names, s3)
      | Some (false, f', s3) => Some (Change f', s3)
      | None => None
      end = Some (o, r) ->
      Suffix r s /\ match parse_flags (s ++ tl) f true [] with
      | Some (true, f', s3) => Some (Group f' names, s3)
      | Some (false, f', s3) => Some (Change f', s3)
      | None => None
      end = Some (o, r ++ tl).
    Proof.
      destruct (parse_flags s f true []) as [[[b f'] s3]|] eqn:E; [|discriminate]. apply parse_flags_ext in E. destruct E as [E1 E2]. rewrite E2.
      destruct b; intros [= <- <-]; auto.
    Qed.
    Lemma open_group_ext f names s o r : okx (f_x f) s -> o_group f names s = Some (o, r) -> Suffix r s /\ o_group f names (s ++ tl) = Some (o, r ++ tl).
    Proof.
      intros Hx H. unfold open_group in *. rewrite bump_ext by auto. pose proof (bump_suffix (f_x f) s) as HS.
      destruct (bump_space (f_x f) s) as [|c s1] eqn:Eb. { inv H. split; [fin|]. reflexivity. }
      cbn [app]. destruct (is "?" c). 2: { inv H. auto. }
      assert (forall r, Suffix r s1 -> Suffix r s) as HS1. { intros r0 H0. eapply Suffix_trans; [exact H0|]. eapply Suffix_tail; eauto. }
      destruct s1 as [|a [|b s2]].
      - discriminate H.
      - destruct (is "P" a) eqn:E1. { apply is_true in E1. subst a. discriminate H. }
        destruct (is "<" a) eqn:E2. { apply is_true in E2. subst a. discriminate H. }
        apply flags_group_ext in H. destruct H as [H1 H2]. split; auto. cbn [app] in *. rewrite E1, E2. exact H2.
      - cbn [app]. destruct (is "P" a && is "<" b). { apply parse_named_ext in H. destruct H. split; auto. apply HS1. fin. }
        destruct (is "<" a).
        + destruct (is "=" b || is "!" b); [discriminate H|]. apply parse_named_ext in H. destruct H. split; auto. apply HS1. fin.
        + apply flags_group_ext in H. destruct H. split; auto.
    Qed.
    Lemma open_group_safe f names s o r : Safe f (bN "(" :: s) -> o_group f names s = Some (o, r) ->
      Safe (match o with Group f' _ => f' | Change f' => f' end) r.
    Proof.
      intros HS H. pose proof (okx_cons (Safe_okx HS)) as Hx. pose proof (open_group_ext _ _ Hx H) as [HS1 _].
      assert (Safe f r) as Hr by (eapply Safe_suffix; [|exact HS]; fin).
      destruct HS as [HS|[HS HT]]. { left. eapply Closed_suffix; [|exact HS]. fin. }
      right. split; [|intros HT2; apply HT; eapply Turns_suffix; [|exact HT2]; fin].
      unfold open_group in H. rewrite HS in H. cbn [bump_space] in H.
      assert (forall s1, match parse_flags s1 f true [] with
        | Some (true, f', s3) => Some (Group f' names, s3)
        | Some (false, f', s3) => Some (Change f', s3)
        | None => None
        end = Some (o, r) -> s = bN "?" :: s1 -> f_x (match o with Group f' _ => f' | Change f' => f' end) = false) as Hfl.
      { intros s1 H1 ->. destruct (parse_flags s1 f true []) as [[[b f'] s3]|] eqn:E; [|discriminate H1].
        destruct (f_x f') eqn:Ef. 2: { destruct b; inv H1; auto. }
        exfalso. apply HT. destruct (parse_flags_x _ _ _ _ E HS Ef) as (fl & b' & -> & H2 & H3). exists [], fl, b'. auto. }
      assert (forall s1, p_named f names s1 = Some (o, r) -> f_x (match o with Group f' _ => f' | Change f' => f' end) = false) as Hnm.
      { intros s1. unfold parse_named. destruct (p_name true s1) as [[n s2]|]; [|discriminate]. destruct (existsb _ names); [discriminate|].
        intros [= <- <-]. auto. }
      destruct s as [|c s1]. { inv H. auto. }
      destruct (is "?" c) eqn:Ec; [|inv H; auto]. apply is_true in Ec. subst c.
      destruct s1 as [|a [|b s2]]; [discriminate H|apply (Hfl [a]); [exact H|reflexivity]|].
      destruct (is "P" a && is "<" b); [eauto|]. destruct (is "<" a).
      - destruct (is "=" b || is "!" b); [discriminate H|eauto].
      - apply (Hfl (a :: b :: s2)); [exact H|reflexivity].
    Qed.

    (** ** Expressions *)
    Notation p_loop := (parse_loop same_letter unicode_digit unicode_word unicode_class alphabetic alphanumeric).
    Lemma parse_loop_ext fuel : forall fuel' f names s alts cat r rest names2, fuel <= fuel' -> Safe f s ->
      p_loop fuel f names s alts cat = Some (r, rest, names2) ->
      Suffix rest s /\ p_loop fuel' f names (s ++ tl) alts cat = Some (r, rest ++ tl, names2).
    Proof.
      induction fuel as [|fuel IH]; intros fuel' f names s alts cat r rest names2 Hf HSafe H; [discriminate H|].
      destruct fuel' as [|fuel']; [lia|]. assert (fuel <= fuel') as Hf' by lia. clear Hf. specialize (IH fuel'). cbn [parse_loop] in *.
      pose proof (Safe_okx HSafe) as Hx. rewrite bump_ext by auto. pose proof (bump_suffix (f_x f) s) as HS.
      destruct (bump_space (f_x f) s) as [|c s'] eqn:Eb.
      { inv H. split; [fin|]. reflexivity. }
      cbn [app]. pose proof (Suffix_tail HS) as HS'. pose proof (okx_suffix HS' Hx) as Hx'. pose proof (Safe_suffix HS' HSafe) as HSafe'.
      destruct (is ")" c). { inv H. auto. }
      assert (forall f' s1 names1 alts' cat', Safe f' s1 -> Suffix s1 s -> p_loop fuel f' names1 s1 alts' cat' = Some (r, rest, names2) ->
        Suffix rest s /\ p_loop fuel' f' names1 (s1 ++ tl) alts' cat' = Some (r, rest ++ tl, names2)) as Go.
      { intros f' s1 names1 alts' cat' H1 H2 H3. apply IH in H3; auto. destruct H3 as [H3 H4]. split; auto. eapply Suffix_trans; eauto. }
      assert (forall min max s1, Suffix s1 s ->
        match cat with
        | Some r0 :: cat' => let '(greedy, s'') := parse_greedy s1 in p_loop fuel f names s'' alts (Some (Rep min max (xorb (f_U f) greedy) r0) :: cat')
        | _ => None
        end = Some (r, rest, names2) ->
        Suffix rest s /\ match cat with
        | Some r0 :: cat' => let '(greedy, s'') := parse_greedy (s1 ++ tl) in p_loop fuel' f names s'' alts (Some (Rep min max (xorb (f_U f) greedy) r0) :: cat')
        | _ => None
        end = Some (r, rest ++ tl, names2)) as Again.
      { intros min max s1 H1 H2. destruct cat as [|[r0|] cat']; try discriminate H2.
        destruct (parse_greedy s1) as [g s2] eqn:Eg. apply parse_greedy_ext in Eg. destruct Eg as [E1 E2]. rewrite E2.
        assert (Suffix s2 s) as H3 by (eapply Suffix_trans; eauto). apply Go; auto. eapply Safe_suffix; eauto. }
      destruct (is "|" c). { apply Go; auto. }
      destruct (is "(" c) eqn:Ep.
      { apply is_true in Ep. subst c.
        destruct (o_group f names s') as [[o s1]|] eqn:Eo; [|discriminate H].
        pose proof (open_group_safe _ (Safe_suffix HS HSafe) Eo) as Hs1. apply open_group_ext in Eo; auto. destruct Eo as [E1 E2]. rewrite E2.
        assert (Suffix s1 s) as HS1 by (eapply Suffix_trans; eauto). destruct o as [f' names'|f'].
        - destruct (p_loop fuel f' names' s1 [] []) as [[[r1 [|c2 s2]] names1]|] eqn:El; try discriminate H.
          apply IH in El; auto. destruct El as [E3 E4]. rewrite E4. cbn [app].
          assert (Suffix s2 s) as HS2 by (eapply Suffix_trans; [|exact HS1]; eapply Suffix_tail; eauto).
          apply Go; auto. eapply Safe_suffix; eauto.
        - apply Go; auto. }
      destruct (is "[" c).
      { destruct (p_class f s') as [[r1 s1]|] eqn:E; [|discriminate H]. apply parse_class_ext in E; auto. destruct E as [E1 E2]. rewrite E2.
        assert (Suffix s1 s) as HS1 by (eapply Suffix_trans; eauto). apply Go; auto. eapply Safe_suffix; eauto. }
      destruct (is "?" c). { apply Again; auto. }
      destruct (is "*" c). { apply Again; auto. }
      destruct (is "+" c). { apply Again; auto. }
      destruct (is "{" c).
      { destruct (parse_counts (f_x f) s') as [[[min max] s1]|] eqn:E; [|discriminate H]. apply parse_counts_ext in E; auto. destruct E as [E1 E2]. rewrite E2.
        apply Again; auto. eapply Suffix_trans; eauto. }
      destruct (is "\" c).
      { destruct (p_escape f s') as [[p1 s1]|] eqn:E; [|discriminate H]. apply parse_escape_ext in E; auto. destruct E as [E1 E2]. rewrite E2.
        assert (Suffix s1 s) as HS1 by (eapply Suffix_trans; eauto). apply Go; auto. eapply Safe_suffix; eauto. }
      destruct (is "." c). { apply Go; auto. }
      destruct (is "^" c). { apply Go; auto. }
      destruct (is "$" c); apply Go; auto.
    Qed.
  End Oracles.
End Compose.

(** ** The names of groups *)
Definition clash (new extra : list (list N)) : bool := existsb (fun n => existsb (chars_eqb n) extra) new.
Lemma clash_app a b extra : clash (a ++ b) extra = clash a extra || clash b extra.
Proof. apply existsb_app. Qed.

Section Names.
  Variable same_letter : N -> list N.
  Variables (unicode_digit unicode_word : N -> bool).
  Variable unicode_class : list N -> option (N -> bool).
  Variables (alphabetic alphanumeric : N -> bool).
  Notation p_named := (parse_named alphabetic alphanumeric).
  Notation o_group := (open_group alphabetic alphanumeric).
  Notation p_loop := (parse_loop same_letter unicode_digit unicode_word unicode_class alphabetic alphanumeric).

  Definition same_opening (names extra : list (list N)) (a b : option (opening * list N)) : Prop :=
    match a with
    | None => b = None
    | Some (Change f', s1) => b = Some (Change f', s1)
    | Some (Group f' names', s1) => exists new, names' = new ++ names /\ b = if clash new extra then None else Some (Group f' (names' ++ extra), s1)
    end.
  Lemma named_names f names extra s : same_opening names extra (p_named f names s) (p_named f (names ++ extra) s).
  Proof.
    unfold parse_named. destruct (parse_name alphabetic alphanumeric true s) as [[n s1]|]; [|reflexivity].
    rewrite existsb_app. destruct (existsb (chars_eqb n) names); [reflexivity|]. exists [n]. split; auto. unfold clash. cbn [existsb orb].
    rewrite orb_false_r. reflexivity.
  Qed.
  Lemma open_names f names extra s : same_opening names extra (o_group f names s) (o_group f (names ++ extra) s).
  Proof.
    assert (forall s1, same_opening names extra
      (match parse_flags s1 f true [] with Some (true, f', s3) => Some (Group f' names, s3) | Some (false, f', s3) => Some (Change f', s3) | None => None end)
      (match parse_flags s1 f true [] with Some (true, f', s3) => Some (Group f' (names ++ extra), s3) | Some (false, f', s3) => Some (Change f', s3) | None => None end)) as Hfl.
    { intros s1. destruct (parse_flags s1 f true []) as [[[[] f'] s3]|]; try reflexivity. exists []. auto. }
    unfold open_group. destruct (bump_space (f_x f) s) as [|c s1]. { exists []. auto. }
    destruct (is "?" c); [|exists []; auto]. destruct s1 as [|a [|b s2]]; [apply Hfl|apply Hfl|].
    destruct (is "P" a && is "<" b); [apply named_names|]. destruct (is "<" a); [|apply Hfl].
    destruct (is "=" b || is "!" b); [reflexivity|apply named_names].
  Qed.
  Definition same_result (names extra : list (list N)) (a b : option (re * list N * list (list N))) : Prop :=
    match a with
    | None => b = None
    | Some (r, rest, names2) => exists new, names2 = new ++ names /\ b = if clash new extra then None else Some (r, rest, names2 ++ extra)
    end.
  Lemma loop_names extra fuel : forall f names s alts cat,
    same_result names extra (p_loop fuel f names s alts cat) (p_loop fuel f (names ++ extra) s alts cat).
  Proof.
    induction fuel as [|fuel IH]; intros f names s alts cat; [reflexivity|]. cbn [parse_loop].
    assert (forall r rest, same_result names extra (Some (r, rest, names)) (Some (r, rest, names ++ extra))) as Done by (intros; exists []; auto).
    destruct (bump_space (f_x f) s) as [|c s']; [apply Done|]. destruct (is ")" c); [apply Done|].
    assert (forall min max s1, same_result names extra
        match cat with
        | Some r0 :: cat' => let '(greedy, s'') := parse_greedy s1 in p_loop fuel f names s'' alts (Some (Rep min max (xorb (f_U f) greedy) r0) :: cat')
        | _ => None
        end
        match cat with
        | Some r0 :: cat' => let '(greedy, s'') := parse_greedy s1 in p_loop fuel f (names ++ extra) s'' alts (Some (Rep min max (xorb (f_U f) greedy) r0) :: cat')
        | _ => None
        end) as Again.
    { intros min max s1. destruct cat as [|[r0|] cat']; try reflexivity. destruct (parse_greedy s1). apply IH. }
    destruct (is "|" c); [apply IH|]. destruct (is "(" c).
    { pose proof (open_names f names extra s') as Ho. destruct (o_group f names s') as [[o s1]|]; cbn [same_opening] in Ho; [|rewrite Ho; reflexivity].
      destruct o as [f' names'|f'].
      - destruct Ho as (new & -> & ->). destruct (clash new extra) eqn:Ec.
        + destruct (p_loop fuel f' (new ++ names) s1 [] []) as [[[r1 [|c2 s2]] names1]|] eqn:El; try reflexivity.
          pose proof (IH f' (new ++ names) s1 [] []) as H1. rewrite El in H1. destruct H1 as (new1 & -> & _).
          pose proof (IH f (new1 ++ new ++ names) s2 alts (Some r1 :: cat)) as H2.
          destruct (p_loop fuel f (new1 ++ new ++ names) s2 alts (Some r1 :: cat)) as [[[r2 rest] names2]|]; [|reflexivity].
          destruct H2 as (new2 & -> & _). exists (new2 ++ new1 ++ new). split. { rewrite <- !app_assoc. reflexivity. }
          rewrite !clash_app, Ec, !orb_true_r. reflexivity.
        + pose proof (IH f' (new ++ names) s1 [] []) as H1.
          destruct (p_loop fuel f' (new ++ names) s1 [] []) as [[[r1 [|c2 s2]] names1]|] eqn:El; cbn [same_result] in H1; try (rewrite H1; reflexivity).
          * destruct H1 as (new1 & -> & H1). rewrite H1. destruct (clash new1 extra); reflexivity.
          * destruct H1 as (new1 & -> & H1). rewrite H1. destruct (clash new1 extra) eqn:Ec1.
            -- pose proof (IH f (new1 ++ new ++ names) s2 alts (Some r1 :: cat)) as H2.
               destruct (p_loop fuel f (new1 ++ new ++ names) s2 alts (Some r1 :: cat)) as [[[r2 rest] names2]|]; [|reflexivity].
               destruct H2 as (new2 & -> & _). exists (new2 ++ new1 ++ new). split. { rewrite <- !app_assoc. reflexivity. }
               rewrite !clash_app, Ec1, !orb_true_r. reflexivity.
            -- pose proof (IH f (new1 ++ new ++ names) s2 alts (Some r1 :: cat)) as H2.
               destruct (p_loop fuel f (new1 ++ new ++ names) s2 alts (Some r1 :: cat)) as [[[r2 rest] names2]|]; cbn [same_result] in H2.
               2: { rewrite H2. reflexivity. }
               destruct H2 as (new2 & -> & H2). rewrite H2. exists (new2 ++ new1 ++ new). split. { rewrite <- !app_assoc. reflexivity. }
               rewrite !clash_app, Ec, Ec1, !orb_false_r. reflexivity.
      - rewrite Ho. apply IH. }
    destruct (is "[" c). { destruct (parse_class _ _ _ _ f s') as [[r1 s1]|]; [apply IH|reflexivity]. }
    destruct (is "?" c); [apply Again|]. destruct (is "*" c); [apply Again|]. destruct (is "+" c); [apply Again|].
    destruct (is "{" c). { destruct (parse_counts (f_x f) s') as [[[min max] s1]|]; [apply Again|reflexivity]. }
    destruct (is "\" c). { destruct (parse_escape _ _ _ _ f s') as [[p1 s1]|]; [apply IH|reflexivity]. }
    destruct (is "." c); [apply IH|]. destruct (is "^" c); [apply IH|]. destruct (is "$" c); apply IH.
  Qed.
End Names.
