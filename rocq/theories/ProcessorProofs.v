From Verif Require Import Base BaseProofs Utf8 SpecUtf8 Utf8Proofs Processor Tokenizer SpecTokenizer SplitProofs.
Set Implicit Arguments.

Lemma replace_fuel_enough from to s : forall fuel, length s < fuel -> forall fuel', length s < fuel' -> from <> [] ->
  replace_fuel fuel s from to = replace_fuel fuel' s from to.
Proof.
  induction s as [s IH] using (induction_ltof1 _ (@length byte)); unfold ltof in IH.
  intros [|fuel] Hf [|fuel'] Hf' Hn; try lia. cbn [replace_fuel]. destruct s as [|b s]; [reflexivity|].
  destruct (starts_with (b :: s) from).
  - f_equal. assert (length (skipn (length from) (b :: s)) < length (b :: s)).
    { rewrite skipn_length. destruct from; [congruence|]. simpl. lia. }
    apply IH; auto; lia.
  - f_equal. simpl in Hf, Hf'. apply IH; auto; simpl; lia.
Qed.

Lemma str_replace_cons b s from to : from <> [] ->
  str_replace (b :: s) from to =
  if starts_with (b :: s) from then to ++ str_replace (skipn (length from) (b :: s)) from to
  else b :: str_replace s from to.
Proof.
  intros Hn. unfold str_replace at 1. change (S (length (b :: s))) with (S (S (length s))).
  remember (S (length s)) as n eqn:En. cbn [replace_fuel]. subst n. destruct (starts_with (b :: s) from).
  - f_equal. assert (length (skipn (length from) (b :: s)) < length (b :: s)).
    { rewrite skipn_length. destruct from; [congruence|]. simpl. lia. }
    unfold str_replace. apply replace_fuel_enough; auto; simpl length in *; lia.
  - reflexivity.
Qed.

Lemma str_replace_valid from to fuel : forall a s,
  from <> [] -> Utf8 from -> Utf8 to -> length s < fuel -> Utf8 (a ++ s) -> Utf8 (a ++ replace_fuel fuel s from to).
Proof.
  induction fuel as [|fuel IH]; intros a s Hn Hf Ht Hl Hu; [lia|]. cbn [replace_fuel].
  destruct s as [|b s]; [exact Hu|].
  destruct (starts_with (b :: s) from) eqn:E.
  - apply Prefix_starts in E as (r & Hr). rewrite Hr in *. rewrite skipn_app, skipn_all, Nat.sub_diag. cbn [skipn app].
    assert (Ha : Utf8 a) by exact (occurrence_boundary a r Hu Hf Hn).
    apply Utf8_app; [exact Ha|]. apply Utf8_app; [exact Ht|].
    apply (IH [] r); auto.
    + assert (length from <> 0) by (destruct from; simpl; congruence).
      assert (Hlen := f_equal (@length byte) Hr). rewrite app_length in Hl. lia.
    + simpl. apply (@Utf8_app_inv from r); [exact Hf|]. exact (@Utf8_app_inv a _ Ha Hu).
  - replace (a ++ b :: replace_fuel fuel s from to) with ((a ++ [b]) ++ replace_fuel fuel s from to) by now rewrite <- app_assoc.
    apply IH; auto; [simpl in Hl; lia|]. now rewrite <- app_assoc.
Qed.

Definition crlf (s : bytes) : bytes := str_replace s [x0d; x0a] [x0a].

Lemma ascii_Utf8 c : (c < 128)%N -> Utf8 [byte_of_N c].
Proof.
  intros H. replace [byte_of_N c] with (encode_char c); [apply Utf8_char; unfold scalar; lia|].
  unfold encode_char. now replace (c <? 128)%N with true by lia.
Qed.

Lemma crlf_valid s : Utf8 s -> Utf8 (crlf s).
Proof.
  intros H. apply (@str_replace_valid [x0d; x0a] [x0a] (S (length s)) [] s); auto.
  - discriminate.
  - exists [13%N; 10%N]. split; [repeat constructor; unfold scalar; lia|reflexivity].
  - exact (@ascii_Utf8 10 eq_refl).
Qed.

Lemma crlf_spec s : CrDropped s (crlf s).
Proof.
  induction s as [s IH] using (induction_ltof1 _ (@length byte)); unfold ltof in IH.
  destruct s as [|b s]; [constructor|].
  unfold crlf. rewrite str_replace_cons by discriminate.
  destruct (starts_with (b :: s) [x0d; x0a]) eqn:E.
  - apply Prefix_starts in E as (r & Hr). simpl in Hr. injection Hr as -> ->. cbn [length skipn app].
    apply CrDropped_crlf. apply CrDropped_keep; [intros [H _]; discriminate|]. apply IH. simpl. lia.
  - apply CrDropped_keep; [|apply IH; simpl; lia].
    intros [-> (r' & ->)]. destruct r'; discriminate E.
Qed.

Lemma CrDropped_fun s out : CrDropped s out -> forall out', CrDropped s out' -> out = out'.
Proof.
  induction 1 as [|r out H IH|b r out Hb H IH]; intros out' H'.
  - now inversion H'.
  - inversion H' as [|r0 out0 H0|b0 r0 out0 Hb0 H0]; subst; [now apply IH|].
    exfalso. apply Hb0. split; [reflexivity|now exists r].
  - inversion H' as [|r0 out0 H0|b0 r0 out0 Hb0 H0]; subst.
    + exfalso. apply Hb. split; [reflexivity|now exists r0].
    + f_equal. now apply IH.
Qed.

(** The output contains CR LF only where the input contains CR CR LF. *)
Lemma CrDropped_hd s out : CrDropped s out -> forall r, out = x0a :: r ->
  (exists s', s = x0a :: s') \/ (exists s', s = x0d :: x0a :: s').
Proof.
  induction 1 as [|r0 out H IH|b r0 out Hb H IH]; intros r He; [discriminate| |].
  - right. now exists r0.
  - injection He as -> ->. left. now exists r0.
Qed.

Lemma CrDropped_idem s out : CrDropped s out ->
  (forall a r, s <> a ++ x0d :: x0d :: x0a :: r) -> CrDropped out out.
Proof.
  induction 1 as [|r out H IH|b r out Hb H IH]; intros Hno; [constructor| |].
  - apply IH. intros a r' He. apply (Hno (x0d :: a) r'). simpl. now f_equal.
  - apply CrDropped_keep.
    + intros [-> (r' & Hr')]. destruct (CrDropped_hd H Hr') as [(s' & ->)|(s' & ->)].
      * apply Hb. split; [reflexivity|now exists s'].
      * exact (Hno [] s' eq_refl).
    + apply IH. intros a r' He. apply (Hno (b :: a) r'). simpl. now f_equal.
Qed.

Lemma CrDropped_cr_cr_lf a : forall s r out, s = a ++ x0d :: x0d :: x0a :: r -> CrDropped s out ->
  exists a' r', out = a' ++ x0d :: x0a :: r'.
Proof.
  assert (Hkeep : forall r out, CrDropped (x0a :: r) out -> exists r', out = x0a :: r').
  { intros r out H. inversion H as [| |b r0 o Hb Ho]; subst. now exists o. }
  induction a as [|b a IH]; intros s r out -> H; simpl in H.
  - inversion H as [|r0 out0 H0|b0 r0 out0 Hb0 H0]; subst.
    inversion H0 as [|r1 out1 H1|b1 r1 out1 Hb1 H1]; subst.
    + destruct (Hkeep _ _ H1) as (r' & ->). now exists [], r'.
    + exfalso. apply Hb1. split; [reflexivity|now exists r].
  - inversion H as [|r0 out0 H0 He|b0 r0 out0 Hb0 H0]; subst.
    + destruct (IH _ _ _ H1 H0) as (a' & r' & ->). now exists a', r'.
    + destruct (IH _ _ _ eq_refl H0) as (a' & r' & ->). now exists (b :: a'), r'.
Qed.

Section Pre.
  Variable normalize : unicode_form -> bytes -> bytes.
  Hypothesis normalize_valid : forall f s, Utf8 s -> Utf8 (normalize f s).

  Lemma preprocess_all_valid ps : forall s, Utf8 s -> Utf8 (preprocess_all normalize ps s).
  Proof.
    unfold preprocess_all. induction ps as [|p ps IH]; intros s H; simpl; [exact H|]. apply IH.
    destruct p; simpl; [now apply crlf_valid|now apply normalize_valid].
  Qed.
End Pre.

Lemma postprocess_all_id ps s : postprocess_all ps s = s.
Proof. unfold postprocess_all. induction (rev ps) as [|p l IH]; simpl; auto. Qed.
