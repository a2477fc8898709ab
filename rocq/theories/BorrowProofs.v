(** The strings of a document that are written without escapes. *)
From Verif Require Import Base F64 Utf8 SpecUtf8 Utf8Proofs SplitProofs SpecJson Json JsonProofs SpecSerde.
Set Implicit Arguments.

Inductive Occurs (s : bytes) : json -> Prop :=
| Occurs_here : Occurs s (JStr true s)
| Occurs_arr l v : In v l -> Occurs s v -> Occurs s (JArr l)
| Occurs_obj l p k v : In (p, k, v) l -> Occurs s v -> Occurs s (JObj l).

Lemma Chars_borrowed src s : Chars src true s -> src = s /\ unescaped s.
Proof.
  intros H. remember true as p eqn:E. induction H as [|b src p s H1 H2 H3 _ IH| | |]; try discriminate.
  - split; [reflexivity|constructor].
  - destruct (IH E) as [-> Hu]. split; [reflexivity|]. constructor; [|exact Hu]. intros [->|[->|Hl]]; [congruence|congruence|lia].
Qed.

Lemma Utf8_cut a b : Utf8 (a ++ b) -> starts_char b -> Utf8 a /\ Utf8 b.
Proof. intros H Hb. assert (Ha := @boundary_Utf8 _ _ H Hb (or_intror I)). split; [exact Ha|]. now apply (@Utf8_app_inv _ _ Ha). Qed.
Lemma starts_app a b : starts_char a -> starts_char b -> starts_char (a ++ b).
Proof. destruct a; auto. Qed.
Lemma starts_Ws w b : Ws w -> starts_char b -> starts_char (w ++ b).
Proof. intros Hw Hb. apply starts_app; [|exact Hb]. destruct Hw as [|x w [->|[->|[->| ->]]] _]; reflexivity. Qed.

Section Borrow.
  Variable num_val : bytes -> option f64.
  Scheme Value_ind2 := Minimality for Value Sort Prop
    with Member_ind2 := Minimality for Member Sort Prop
    with More_values_ind2 := Minimality for More_values Sort Prop
    with More_members_ind2 := Minimality for More_members Sort Prop.
  Combined Scheme Values_ind from Value_ind2, Member_ind2, More_values_ind2, More_members_ind2.

  Lemma starts_Value d t v : Value num_val d t v -> starts_char t.
  Proof.
    destruct 1 as [d|d|d|d tok x Hn Hx|d src p s HC|d w Hw|d w t v ts vs Hw HV HM|d w Hw|d w t m ts ms Hw HV HM]; try reflexivity.
    destruct (Number_head Hn) as (b & t' & -> & [->|Hb]); [reflexivity|]. simpl. unfold is_cont, in_range. apply andb_false_iff. left. apply N.leb_gt.
    unfold digit in Hb. unfold bN. lia.
  Qed.
  Lemma starts_Member d t m : Member num_val d t m -> starts_char t.
  Proof. destruct 1. reflexivity. Qed.
  Lemma starts_values d t v : More_values num_val d t v -> starts_char t.
  Proof. destruct 1; [rewrite <- (app_nil_r w)|]; now apply starts_Ws. Qed.
  Lemma starts_members d t v : More_members num_val d t v -> starts_char t.
  Proof. destruct 1; [rewrite <- (app_nil_r w)|]; now apply starts_Ws. Qed.

  Definition borrowed_ok (v : json) : Prop := forall s, Occurs s v -> unescaped s /\ Utf8 s.
  Lemma borrowed :
    (forall d t v, Value num_val d t v -> Utf8 t -> borrowed_ok v) /\
    (forall d t m, Member num_val d t m -> Utf8 t -> borrowed_ok (snd m)) /\
    (forall d t l, More_values num_val d t l -> Utf8 t -> Forall borrowed_ok l) /\
    (forall d t l, More_members num_val d t l -> Utf8 t -> Forall (fun m => borrowed_ok (snd m)) l).
  Proof.
    apply Values_ind.
    - intros d _ s H. inversion H.
    - intros d _ s H. inversion H.
    - intros d _ s H. inversion H.
    - intros d tok x _ _ _ s H. inversion H.
    - intros d src p s HC HU s' H. inversion H; subst. apply Chars_borrowed in HC as [-> HU']. split; [exact HU'|].
      change (x22 :: s ++ [x22]) with ([x22] ++ s ++ [x22]) in HU. apply Utf8_app_inv in HU; [|apply (@Utf8_char 0x22%N); unfold scalar; lia].
      now apply Utf8_cut in HU.
    - intros d w _ _ s H. inversion H as [|? ? Hin|]; subst. destruct Hin.
    - intros d w t v ts vs Hw HV IHV HM IHM HU.
      change (x5b :: w ++ t ++ ts ++ [x5d]) with ((x5b :: w) ++ t ++ ts ++ [x5d]) in HU.
      apply Utf8_cut in HU as [_ HU]; [|apply starts_app; [eapply starts_Value; eauto|apply starts_app; [eapply starts_values; eauto|reflexivity]]].
      apply Utf8_cut in HU as [HU1 HU]; [|apply starts_app; [eapply starts_values; eauto|reflexivity]].
      apply Utf8_cut in HU as [HU2 _]; [|reflexivity]. apply IHV in HU1. apply IHM in HU2.
      intros s H. inversion H as [|? v' Hin Ho|]; subst. destruct Hin as [<-|Hin]; [now apply HU1|]. rewrite Forall_forall in HU2. now apply (HU2 v').
    - intros d w _ _ s H. inversion H as [| |? ? ? ? Hin]; subst. destruct Hin.
    - intros d w t m ts ms Hw HV IHV HM IHM HU.
      change (x7b :: w ++ t ++ ts ++ [x7d]) with ((x7b :: w) ++ t ++ ts ++ [x7d]) in HU.
      apply Utf8_cut in HU as [_ HU]; [|apply starts_app; [eapply starts_Member; eauto|apply starts_app; [eapply starts_members; eauto|reflexivity]]].
      apply Utf8_cut in HU as [HU1 HU]; [|apply starts_app; [eapply starts_members; eauto|reflexivity]].
      apply Utf8_cut in HU as [HU2 _]; [|reflexivity]. apply IHV in HU1. apply IHM in HU2.
      intros s H. inversion H as [| |? p k v' Hin Ho]; subst. destruct Hin as [->|Hin]; [now apply HU1|]. rewrite Forall_forall in HU2. now apply (HU2 _ Hin).
    - intros d src p k w1 w2 t v HC Hw1 Hw2 HV IH HU. simpl.
      replace (x22 :: src ++ x22 :: w1 ++ x3a :: w2 ++ t) with ((x22 :: src ++ x22 :: w1 ++ x3a :: w2) ++ t) in HU
        by (simpl; rewrite <- app_assoc; simpl; rewrite <- app_assoc; reflexivity).
      apply Utf8_cut in HU as [_ HU]; [|eapply starts_Value; eauto]. auto.
    - constructor.
    - intros d w1 w2 t v ts vs Hw1 Hw2 HV IHV HM IHM HU.
      replace (w1 ++ x2c :: w2 ++ t ++ ts) with ((w1 ++ x2c :: w2) ++ t ++ ts) in HU by (rewrite <- app_assoc; reflexivity).
      apply Utf8_cut in HU as [_ HU]; [|apply starts_app; [eapply starts_Value; eauto|eapply starts_values; eauto]].
      apply Utf8_cut in HU as [HU1 HU2]; [|eapply starts_values; eauto]. constructor; auto.
    - constructor.
    - intros d w1 w2 t v ts vs Hw1 Hw2 HV IHV HM IHM HU.
      replace (w1 ++ x2c :: w2 ++ t ++ ts) with ((w1 ++ x2c :: w2) ++ t ++ ts) in HU by (rewrite <- app_assoc; reflexivity).
      apply Utf8_cut in HU as [_ HU]; [|apply starts_app; [eapply starts_Member; eauto|eapply starts_members; eauto]].
      apply Utf8_cut in HU as [HU1 HU2]; [|eapply starts_members; eauto]. constructor; auto.
  Qed.

  Lemma document_borrowed doc v : Document num_val doc v -> Utf8 doc -> borrowed_ok v.
  Proof.
    intros (w & t & w' & -> & Hw & Hw' & HV) HU. apply (proj1 borrowed _ _ _ HV).
    assert (Hs := starts_Value HV). assert (Hs' : starts_char w') by (rewrite <- (app_nil_r w'); now apply starts_Ws).
    apply Utf8_cut in HU as [_ HU]; [|now apply starts_app]. now apply Utf8_cut in HU as [HU _].
  Qed.

  Lemma loaded_specials doc v vocab ps sps : Document num_val doc v -> Utf8 doc -> Is_tokenizer v vocab ps sps ->
    Forall unescaped sps /\ Forall Utf8 sps.
  Proof.
    intros HD HU (ms & -> & _ & _ & HF & _). assert (HB := document_borrowed HD HU).
    assert (H : forall s, In s sps -> Occurs s (JObj ms)).
    { intros s Hs. destruct HF as [_ HF]. destruct (rev (values_of "special_tokens" ms)) as [|v vs] eqn:E; [subst; destruct Hs|].
      destruct HF as (l & -> & HF). assert (Hin : In (JArr l) (values_of "special_tokens" ms)) by (apply in_rev; rewrite E; now left).
      unfold values_of in Hin. apply in_map_iff in Hin as ([[p k] w] & Ew & Hin). simpl in Ew. subst w. apply filter_In in Hin as [Hin _].
      eapply Occurs_obj; [exact Hin|]. clear -HF Hs. induction HF as [|x y l l' -> _ IH]; [destruct Hs|].
      destruct Hs as [<-|Hs]; [eapply Occurs_arr; [now left|constructor]|]. specialize (IH Hs). inversion IH as [|? ? Hi Ho|]; subst. eapply Occurs_arr; [now right; exact Hi|exact Ho]. }
    split; apply Forall_forall; intros s Hs; apply H, HB in Hs; tauto.
  Qed.
End Borrow.
