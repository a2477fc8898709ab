(** The deserialisers read exactly the documents described in SpecSerde.v, and read back what the serialisers write. *)
From Verif Require Import Base BaseProofs F64 Utf8 SpecUtf8 Utf8Proofs Trie Model Processor Tokenizer SpecTokenizer
  TokenizerProofs TokenizerFacts SpecJson SpecSerde Base64 Base64Proofs Json JsonProofs JsonWrite Serde.
Set Implicit Arguments.
Local Ltac splits := repeat match goal with |- _ /\ _ => split end.

(** ** Base64 is a function, and its inverse is [b64_decode] *)
Lemma bits_length k n : length (bits k n) = k.
Proof. induction k; simpl; congruence. Qed.
Definition unbits (l : list bool) : N := fold_left (fun a b => (2 * a + N.b2n b)%N) l 0%N.
Lemma unbits_bits n : (n < 64)%N -> unbits (bits 6 n) = n.
Proof. intros H. apply N.eqb_eq. exact (forall_below 64 (fun n => N.eqb (unbits (bits 6 n)) n) eq_refl H). Qed.
Lemma alphabet_bound v c : nth_error alphabet (N.to_nat v) = Some c -> (v < 64)%N.
Proof.
  intros H. assert (Hl : N.to_nat v < length alphabet) by (apply nth_error_Some; congruence).
  change (length alphabet) with 64 in Hl. lia.
Qed.
Lemma flat_map_length_const {A B} (f : A -> list B) k l : (forall a, length (f a) = k) -> length (flat_map f l) = length l * k.
Proof. intros H. induction l as [|a l IH]; [reflexivity|]. simpl. rewrite app_length, H, IH. reflexivity. Qed.

Lemma groups_inj vs : forall vs', length vs = length vs' -> Forall (fun v => (v < 64)%N) vs -> Forall (fun v => (v < 64)%N) vs' ->
  flat_map (bits 6) vs = flat_map (bits 6) vs' -> vs = vs'.
Proof.
  induction vs as [|v vs IH]; intros [|v' vs'] Hl H H' E; try discriminate; [reflexivity|].
  inversion H; inversion H'; subst. cbn [flat_map] in E.
  apply (f_equal (firstn 6)) in E as E1. apply (f_equal (skipn 6)) in E as E2.
  rewrite !firstn_app, !bits_length, !Nat.sub_diag, !firstn_O, !app_nil_r in E1.
  rewrite !skipn_app, !bits_length, !Nat.sub_diag in E2.
  rewrite !firstn_all2 in E1 by (rewrite bits_length; lia). rewrite !skipn_all2 in E2 by (rewrite bits_length; lia).
  f_equal; [|apply IH; auto; simpl in Hl; lia]. rewrite <- (unbits_bits H2), <- (unbits_bits H6). now f_equal.
Qed.

Lemma Base64_fun s cs cs' : Base64 s cs -> Base64 s cs' -> cs = cs'.
Proof.
  intros (vs & pad & HF & E & Hp & Hz) (vs' & pad' & HF' & E' & Hp' & Hz').
  assert (HL := f_equal (@List.length _) E). assert (HL' := f_equal (@List.length _) E').
  rewrite app_length in HL, HL'. rewrite (flat_map_length_const _ (k := 6)) in HL, HL' by (apply bits_length).
  rewrite (flat_map_length_const _ (k := 8)) in HL, HL' by (intros; apply bits_length).
  assert (Hpp : length pad = length pad') by lia. assert (Hvv : length vs = length vs') by lia.
  assert (Epad : pad = pad').
  { clear - Hpp Hz Hz'. revert pad' Hpp Hz'. induction Hz as [|b pad Hb Hz IH]; intros [|b' pad'] Hpp Hz'; try discriminate; [reflexivity|].
    inversion Hz'; subst. f_equal. apply IH; auto. }
  subst pad'.
  assert (Hb : forall vs cs, Forall2 (fun v c => nth_error alphabet (N.to_nat v) = Some c) vs cs -> Forall (fun v => (v < 64)%N) vs).
  { clear. induction 1; constructor; auto. eapply alphabet_bound; eauto. }
  assert (vs = vs') by (apply groups_inj; eauto; congruence). subst vs'.
  clear - HF HF'. revert cs' HF'. induction HF as [|v c vs cs Hv HF IH]; intros cs' HF'; inversion HF'; subst; [reflexivity|].
  f_equal; [congruence|]. now apply IH.
Qed.

Lemma b64_decode_iff cs s : b64_decode cs = Some s <-> Base64 s cs.
Proof.
  split.
  - intros H. apply b64_encode_decode in H. subst. apply b64_encode_spec.
  - intros H. rewrite (Base64_fun H (b64_encode_spec s)). apply b64_decode_encode.
Qed.

(** ** Fields *)
Section Fields.
  Context {A : Type}.
  Variable k : string.
  Variable R : json -> A -> Prop.
  Lemma Field_nil d a : Field k R [] d a <-> a = d.
  Proof. unfold Field. simpl. split; [tauto|]. intros H. split; [constructor|exact H]. Qed.
  Lemma Field_cons p k' v ms d a : Field k R ((p, k', v) :: ms) d a <->
    if bytes_eqb k' (B k) then exists x, R v x /\ Field k R ms x a else Field k R ms d a.
  Proof.
    unfold Field, values_of. cbn [filter fst snd]. destruct (bytes_eqb k' (B k)); [|reflexivity]. cbn [map snd].
    set (vs := map snd _). simpl rev. split.
    - intros [H1 H2]. inversion H1 as [|? ? [x Hx] Hv]; subst. destruct (rev vs) as [|w ws] eqn:E; simpl in H2.
      + exists a. repeat split; auto.
      + exists x. repeat split; auto.
    - intros (x & Hx & H1 & H2). split; [constructor; eauto|]. destruct (rev vs) as [|w ws] eqn:E; simpl; [now subst|exact H2].
  Qed.
End Fields.

Lemma keys_nil names : keys_among names [] <-> True.
Proof. split; [auto|constructor]. Qed.
Lemma keys_cons names p k v ms : keys_among names ((p, k, v) :: ms) <-> p = true /\ (exists n, In n names /\ k = B n) /\ keys_among names ms.
Proof. unfold keys_among. split; [intros H; inversion H; subst; simpl in *; tauto|]. intros (? & ? & ?). constructor; auto. Qed.

(** ** Scalars and lists *)
Lemma de_string_iff v s : de_string v = Some s <-> Is_string v s.
Proof.
  unfold Is_string. destruct v; simpl; split; intros H; try discriminate; try (destruct H as [p H]; discriminate).
  - injection H as <-. eauto.
  - destruct H as [p H]. now injection H as -> ->.
Qed.
Lemma de_borrowed_iff v s : de_borrowed v = Some s <-> Is_borrowed v s.
Proof. unfold Is_borrowed. destruct v as [| | |[]| |]; simpl; split; intros H; try discriminate; congruence. Qed.
Lemma de_bool_iff v b : de_bool v = Some b <-> Is_bool v b.
Proof. unfold Is_bool. destruct v; simpl; split; intros H; try discriminate; congruence. Qed.
Lemma de_opt_string_iff v o : de_option de_string v = Some o <-> Is_some Is_string v o.
Proof.
  unfold Is_some, Is_string. destruct v, o; simpl; split; intros H; try discriminate; try reflexivity; try (destruct H; discriminate).
  - injection H as <-. eauto.
  - destruct H as [? H]. now injection H as -> ->.
Qed.
Lemma de_opt_f64_iff v o : de_option de_f64 v = Some o <-> Is_some Is_num v o.
Proof. unfold Is_some, Is_num. destruct v, o; simpl; split; intros H; try discriminate; try reflexivity; congruence. Qed.

Lemma de_all_iff {A} (f : json -> option A) (R : json -> A -> Prop) : (forall v a, f v = Some a <-> R v a) ->
  forall vs l, de_all f vs = Some l <-> Forall2 R vs l.
Proof.
  intros Hf. induction vs as [|v vs IH]; intros l; simpl.
  - split; [intros [= <-]; constructor|]. inversion 1; reflexivity.
  - split.
    + destruct (f v) as [a|] eqn:E; [|discriminate]. destruct (de_all f vs) as [l'|] eqn:E'; [|discriminate].
      intros [= <-]. constructor; [now apply Hf|now apply IH].
    + inversion 1 as [|? a ? l' Ha Hl]; subst. apply Hf in Ha. apply IH in Hl. now rewrite Ha, Hl.
Qed.
Lemma de_vec_iff {A} (f : json -> option A) (R : json -> A -> Prop) : (forall v a, f v = Some a <-> R v a) ->
  forall v l, de_vec f v = Some l <-> Is_list R v l.
Proof.
  intros Hf v l. unfold Is_list. destruct v; simpl; try (split; [discriminate|intros (vs & ? & _); discriminate]).
  rewrite (de_all_iff _ _ Hf). split; [eauto|]. intros (vs & [= ->] & H). exact H.
Qed.

Lemma map_some_iff {A B} (f : A -> B) (o : option A) b : option_map f o = Some b <-> exists a, o = Some a /\ f a = b.
Proof. destruct o; simpl; split; [intros [= <-]; eauto|intros (? & [= ->] & <-); reflexivity|discriminate|intros (? & ? & _); discriminate]. Qed.

Lemma beqs_spec k s : reflect (k = B s) (beqs k s).
Proof. apply bytes_eqb_spec. Qed.

(** ** Tokens *)
Lemma token_fields_iff ms : forall st st', visit_map token_step st ms = Some st' <->
  keys_among ["value"; "score"; "encoded"; "keep"]%string ms /\
  Field "value" (Is_some Is_string) ms (tf_value st) (tf_value st') /\
  Field "score" (Is_some Is_num) ms (tf_score st) (tf_score st') /\
  Field "encoded" Is_bool ms (tf_encoded st) (tf_encoded st') /\
  Field "keep" Is_bool ms (tf_keep st) (tf_keep st').
Proof.
  induction ms as [|[[p k] v] ms IH]; intros st st'.
  - rewrite keys_nil, !Field_nil. simpl. destruct st, st'; simpl. split; [intros [= -> -> -> ->]; auto|]. intros (_ & -> & -> & -> & ->). reflexivity.
  - rewrite keys_cons, !Field_cons. destruct p; [|simpl; split; [discriminate|intros ((? & _) & _); discriminate]].
    cbn [visit_map]. unfold token_step at 1.
    destruct (beqs_spec k "value") as [->|N1].
    { cbn. split.
      - destruct (de_option de_string v) as [x|] eqn:E; [|discriminate]. apply de_opt_string_iff in E. simpl. rewrite IH. simpl.
        intros (H1 & H2 & H3 & H4 & H5). splits; auto; [exists "value"%string; simpl; auto 10|]. eauto.
      - intros ((_ & _ & H1) & (x & Hx & H2) & H3). apply de_opt_string_iff in Hx. rewrite Hx. simpl. apply IH. simpl. auto. }
    destruct (beqs_spec k "score") as [->|N2].
    { cbn. split.
      - destruct (de_option de_f64 v) as [x|] eqn:E; [|discriminate]. apply de_opt_f64_iff in E. simpl. rewrite IH. simpl.
        intros (H1 & H2 & H3 & H4 & H5). splits; auto; [exists "score"%string; simpl; auto 10|]. eauto.
      - intros ((_ & _ & H1) & H2 & (x & Hx & H3) & H4). apply de_opt_f64_iff in Hx. rewrite Hx. simpl. apply IH. simpl. auto. }
    destruct (beqs_spec k "encoded") as [->|N3].
    { cbn. split.
      - destruct (de_bool v) as [x|] eqn:E; [|discriminate]. apply de_bool_iff in E. simpl. rewrite IH. simpl.
        intros (H1 & H2 & H3 & H4 & H5). splits; auto; [exists "encoded"%string; simpl; auto 10|]. eauto.
      - intros ((_ & _ & H1) & H2 & H3 & (x & Hx & H4) & H5). apply de_bool_iff in Hx. rewrite Hx. simpl. apply IH. simpl. auto. }
    destruct (beqs_spec k "keep") as [->|N4].
    { cbn. split.
      - destruct (de_bool v) as [x|] eqn:E; [|discriminate]. apply de_bool_iff in E. simpl. rewrite IH. simpl.
        intros (H1 & H2 & H3 & H4 & H5). splits; auto; [exists "keep"%string; simpl; auto 10|]. eauto.
      - intros ((_ & _ & H1) & H2 & H3 & H4 & (x & Hx & H5)). apply de_bool_iff in Hx. rewrite Hx. simpl. apply IH. simpl. auto. }
    split; [discriminate|]. intros ((_ & (n & [<-|[<-|[<-|[<-|[]]]]] & Hn) & _) & _); contradiction.
Qed.

Lemma de_token_iff v t : de_token v = Some t <-> Is_token v t.
Proof.
  unfold Is_token. destruct v as [| | | | |ms]; try (split; [discriminate|intros (ms & ? & ? & ? & _); discriminate]).
  simpl. split.
  - destruct (visit_map token_step _ ms) as [st|] eqn:E; [|discriminate]. apply token_fields_iff in E as (H1 & H2 & H3 & H4 & H5).
    destruct (tf_value st) as [text|]; [|discriminate].
    destruct (if tf_encoded st then b64_decode text else Some text) as [value|] eqn:Ed; [|discriminate].
    destruct (tf_score st) as [score|]; [|discriminate]. intros [= <-]. exists ms, text, (tf_encoded st). simpl. repeat split; auto;
      try apply H1; try apply H2; try apply H3; try apply H4; try apply H5.
    destruct (tf_encoded st); [now apply b64_decode_iff|congruence].
  - intros (ms' & text & enc & [= <-] & H1 & H2 & H3 & H4 & H5 & H6). destruct t as [value score keep]. simpl in *.
    assert (E : visit_map token_step (TF None None false false) ms = Some (TF (Some text) (Some score) enc keep)) by (apply token_fields_iff; simpl; auto).
    rewrite E. simpl. destruct enc; [apply b64_decode_iff in H6; now rewrite H6|now subst].
Qed.

(** ** Processors *)
Definition all_plain (ms : members) : Prop := Forall (fun m => fst (fst m) = true) ms.
Lemma plain_cons p k v ms : all_plain ((p, k, v) :: ms) <-> p = true /\ all_plain ms.
Proof. unfold all_plain. split; [inversion 1; subst; auto|]. intros []. now constructor. Qed.

Lemma crlf_iff ms : visit_map crlf_step tt ms = Some tt <->
  all_plain ms /\ Forall (fun w => Is_string w (B "crlf")) (values_of "type" ms).
Proof.
  induction ms as [|[[p k] v] ms IH].
  - simpl. split; [intros _; split; constructor|reflexivity].
  - rewrite plain_cons. destruct p; [|simpl; split; [discriminate|intros ((? & _) & _); discriminate]].
    cbn [visit_map]. unfold crlf_step at 1, values_of. cbn [filter fst snd]. destruct (beqs_spec k "type") as [->|N].
    + replace (bytes_eqb (B "type") (B "type")) with true by reflexivity. cbn [map snd]. split.
      * destruct (de_string v) as [s|] eqn:E; [|discriminate]. destruct (beqs_spec s "crlf") as [->|]; [|discriminate].
        intros H. apply IH in H as [H1 H2]. apply de_string_iff in E. auto.
      * intros [[_ H1] H2]. inversion H2 as [|? ? Hv H2']; subst. apply de_string_iff in Hv. rewrite Hv. cbn. apply IH. auto.
    + destruct (bytes_eqb_spec k (B "type")); [contradiction|]. rewrite IH. unfold values_of. tauto.
Qed.

Lemma de_crlf_iff v p : de_crlf v = Some p <-> p = Crlf /\ Is_crlf v.
Proof.
  unfold Is_crlf. destruct v as [| | | | |ms]; try (split; [discriminate|intros (_ & ms & ? & _); discriminate]).
  simpl. rewrite map_some_iff. split.
  - intros ([] & E & <-). split; [reflexivity|]. apply crlf_iff in E as [H1 H2]. eauto.
  - intros (-> & ms' & [= <-] & H). exists tt. split; [|reflexivity]. now apply crlf_iff.
Qed.

Lemma form_iff ms : forall st o, visit_map form_step st ms = Some o <->
  all_plain ms /\ Field "form" (fun v o => exists s, o = Some s /\ Is_string v s) ms st o.
Proof.
  induction ms as [|[[p k] v] ms IH]; intros st o.
  - rewrite Field_nil. simpl. split; [intros [= ->]; split; [constructor|reflexivity]|]. now intros [_ ->].
  - rewrite plain_cons, Field_cons. destruct p; [|simpl; split; [discriminate|intros ((? & _) & _); discriminate]].
    cbn [visit_map]. unfold form_step at 1. destruct (beqs_spec k "form") as [->|N].
    + replace (bytes_eqb (B "form") (B "form")) with true by reflexivity. split.
      * destruct (de_string v) as [s|] eqn:E; [|discriminate]. simpl. rewrite IH. apply de_string_iff in E. intros [H1 H2].
        split; [auto|]. exists (Some s). eauto.
      * intros [[_ H1] (x & (s & -> & Hs) & H2)]. apply de_string_iff in Hs. rewrite Hs. simpl. apply IH. auto.
    + destruct (bytes_eqb_spec k (B "form")); [contradiction|]. rewrite IH. tauto.
Qed.

Lemma form_of_iff s f : form_of s = Some f <-> s = B (form_name f).
Proof.
  unfold form_of. split.
  - destruct (beqs_spec s "nfc") as [->|]; [intros [= <-]; reflexivity|]. destruct (beqs_spec s "nfd") as [->|]; [intros [= <-]; reflexivity|].
    destruct (beqs_spec s "nfkc") as [->|]; [intros [= <-]; reflexivity|]. destruct (beqs_spec s "nfkd") as [->|]; [intros [= <-]; reflexivity|]. discriminate.
  - intros ->. now destruct f.
Qed.

Lemma Is_form_name v f : Is_form v f <-> exists ms, v = JObj ms /\ all_plain ms /\
  Field "form" (fun v o => exists s, o = Some s /\ Is_string v s) ms None (Some (B (form_name f))).
Proof. unfold Is_form. now destruct f. Qed.

Lemma de_unicode_iff v p : de_unicode v = Some p <-> exists f, p = Unicode f /\ Is_form v f.
Proof.
  setoid_rewrite Is_form_name. destruct v as [| | | | |ms]; try (split; [discriminate|intros (f & _ & ms & ? & _); discriminate]).
  simpl. split.
  - destruct (visit_map form_step None ms) as [[s|]|] eqn:E; try discriminate. rewrite map_some_iff. intros (f & Hf & <-).
    apply form_iff in E as [H1 H2]. apply form_of_iff in Hf. subst. eauto 8.
  - intros (f & -> & ms' & [= <-] & H1 & H2).
    assert (E : visit_map form_step None ms = Some (Some (B (form_name f)))) by now apply form_iff.
    rewrite E. now rewrite (proj2 (form_of_iff _ f) eq_refl).
Qed.

Lemma de_processor_iff v p : de_processor v = Some p <-> Is_processor v p.
Proof.
  unfold de_processor. destruct (de_crlf v) as [q|] eqn:E.
  - apply de_crlf_iff in E as [-> E]. destruct p; simpl; [tauto|]. split; [discriminate|]. intros [H _]. contradiction.
  - assert (N : ~ Is_crlf v) by (intros H; assert (H' := proj2 (de_crlf_iff v Crlf) (conj eq_refl H)); congruence).
    rewrite de_unicode_iff. destruct p as [|f]; simpl.
    + split; [intros (f & ? & _); discriminate|contradiction].
    + split; [intros (f' & [= <-] & H); auto|]. intros [_ H]. eauto.
Qed.

(** ** Tokenizers *)
Definition Is_version (v : json) (o : option bytes) : Prop := exists s, o = Some s /\ Is_string v s.
Lemma tok_fields_iff ms : forall st st', visit_map tok_step st ms = Some st' <->
  keys_among ["version"; "special_tokens"; "processors"; "vocab"]%string ms /\
  Field "version" Is_version ms (kf_version st) (kf_version st') /\
  Field "special_tokens" (Is_list Is_borrowed) ms (kf_specials st) (kf_specials st') /\
  Field "processors" (Is_list Is_processor) ms (kf_processors st) (kf_processors st') /\
  Field "vocab" (Is_list Is_token) ms (kf_vocab st) (kf_vocab st').
Proof.
  induction ms as [|[[p k] v] ms IH]; intros st st'.
  - rewrite keys_nil, !Field_nil. simpl. destruct st, st'; simpl. split; [intros [= -> -> -> ->]; auto|]. intros (_ & -> & -> & -> & ->). reflexivity.
  - rewrite keys_cons, !Field_cons. destruct p; [|simpl; split; [discriminate|intros ((? & _) & _); discriminate]].
    cbn [visit_map]. unfold tok_step at 1.
    destruct (beqs_spec k "version") as [->|N1].
    { cbn. split.
      - destruct (de_string v) as [x|] eqn:E; [|discriminate]. apply de_string_iff in E. simpl. rewrite IH. simpl.
        intros (H1 & H2 & H3 & H4 & H5). splits; auto; [exists "version"%string; simpl; auto 10|]. exists (Some x). split; [exists x; auto|auto].
      - intros ((_ & _ & H1) & (x & (s & -> & Hx) & H2) & H3). apply de_string_iff in Hx. rewrite Hx. simpl. apply IH. simpl. auto. }
    destruct (beqs_spec k "special_tokens") as [->|N2].
    { cbn. split.
      - destruct (de_vec de_borrowed v) as [x|] eqn:E; [|discriminate]. apply (de_vec_iff _ _ de_borrowed_iff) in E. simpl. rewrite IH. simpl.
        intros (H1 & H2 & H3 & H4 & H5). splits; auto; [exists "special_tokens"%string; simpl; auto 10|]. eauto.
      - intros ((_ & _ & H1) & H2 & (x & Hx & H3) & H4). apply (de_vec_iff _ _ de_borrowed_iff) in Hx. rewrite Hx. simpl. apply IH. simpl. auto. }
    destruct (beqs_spec k "vocab") as [->|N4].
    { cbn. split.
      - destruct (de_vec de_token v) as [x|] eqn:E; [|discriminate]. apply (de_vec_iff _ _ de_token_iff) in E. simpl. rewrite IH. simpl.
        intros (H1 & H2 & H3 & H4 & H5). splits; auto; [exists "vocab"%string; simpl; auto 10|]. eauto.
      - intros ((_ & _ & H1) & H2 & H3 & H4 & (x & Hx & H5)). apply (de_vec_iff _ _ de_token_iff) in Hx. rewrite Hx. simpl. apply IH. simpl. auto. }
    destruct (beqs_spec k "processors") as [->|N3].
    { cbn. split.
      - destruct (de_vec de_processor v) as [x|] eqn:E; [|discriminate]. apply (de_vec_iff _ _ de_processor_iff) in E. simpl. rewrite IH. simpl.
        intros (H1 & H2 & H3 & H4 & H5). splits; auto; [exists "processors"%string; simpl; auto 10|]. eauto.
      - intros ((_ & _ & H1) & H2 & H3 & (x & Hx & H4) & H5). apply (de_vec_iff _ _ de_processor_iff) in Hx. rewrite Hx. simpl. apply IH. simpl. auto. }
    split; [discriminate|]. intros ((_ & (n & [<-|[<-|[<-|[<-|[]]]]] & Hn) & _) & _); contradiction.
Qed.

Lemma de_tok_iff v t : de_tok v = Some t <->
  exists vocab ps sps, Is_tokenizer v vocab ps sps /\ t = tok_new (model_from vocab) ps sps.
Proof.
  unfold Is_tokenizer. destruct v as [| | | | |ms]; try (split; [discriminate|intros (vocab & ps & sps & (ms & ? & _) & _); discriminate]).
  simpl. split.
  - destruct (visit_map tok_step _ ms) as [st|] eqn:E; [|discriminate]. apply tok_fields_iff in E as (H1 & H2 & H3 & H4 & H5).
    destruct (kf_version st) as [ver|]; [|discriminate]. destruct (bytes_eqb_spec ver version) as [->|]; [|discriminate].
    intros [= <-]. exists (kf_vocab st), (kf_processors st), (kf_specials st). split; [|reflexivity]. exists ms. auto 10.
  - intros (vocab & ps & sps & (ms' & [= <-] & H1 & H2 & H3 & H4 & H5) & ->).
    assert (E : visit_map tok_step (TKF None [] [] []) ms = Some (TKF (Some version) sps vocab ps)) by (apply tok_fields_iff; simpl; auto).
    rewrite E. reflexivity.
Qed.

(** ** Reading back what was written *)
Section Round.
  Variable fmt_num : f64 -> bytes.
  Variable num_val : bytes -> option f64.
  Variable codec : f64 -> f64.
  Hypothesis Hcodec : num_codec fmt_num num_val codec.

  Definition recode (t : scored_token) : scored_token := clone_with_score t (codec (st_score t)).

  Lemma de_token_ser t : de_token (reread codec (ser_token t)) =
    if f_is_finite (st_score t) then Some (recode t) else None.
  Proof.
    destruct t as [value score keep]. unfold ser_token. cbn [st_value st_score st_keep].
    destruct (utf8_ok value); cbn; destruct (f_is_finite score); destruct keep; cbn; try reflexivity;
      now rewrite b64_decode_encode.
  Qed.

  Lemma de_processor_ser p : de_processor (reread codec (ser_processor p)) = Some p.
  Proof. destruct p as [|[]]; reflexivity. Qed.

  Lemma de_all_map {A B} (f : json -> option B) (g : A -> json) (ok : A -> bool) (h : A -> B) l :
    (forall a, f (g a) = if ok a then Some (h a) else None) ->
    de_all f (map g l) = if forallb ok l then Some (map h l) else None.
  Proof.
    intros H. induction l as [|a l IH]; [reflexivity|]. simpl. rewrite H. destruct (ok a); [|reflexivity]. rewrite IH. simpl.
    now destruct (forallb ok l).
  Qed.

  Lemma de_tok_ser t : de_tok (reread codec (ser_tok t)) =
    if forallb plain (tk_specials t) && forallb (fun tk => f_is_finite (st_score tk)) (m_vocab (tk_model t))
    then Some (tok_new (model_from (map recode (m_vocab (tk_model t)))) (tk_processors t) (tk_specials t))
    else None.
  Proof.
    assert (E1 : de_all de_borrowed (map (reread codec) (map jstr (tk_specials t))) = if forallb plain (tk_specials t) then Some (map (fun s => s) (tk_specials t)) else None).
    { rewrite map_map. apply de_all_map. intros s. simpl. now destruct (plain s). }
    assert (E2 : de_all de_processor (map (reread codec) (map ser_processor (tk_processors t))) = Some (tk_processors t)).
    { rewrite map_map. rewrite (de_all_map _ _ (fun _ => true) (fun p => p)) by apply de_processor_ser. rewrite map_id.
      now replace (forallb (fun _ => true) (tk_processors t)) with true by (symmetry; apply forallb_forall; auto). }
    assert (E3 : de_all de_token (map (reread codec) (map ser_token (m_vocab (tk_model t)))) =
      if forallb (fun tk => f_is_finite (st_score tk)) (m_vocab (tk_model t)) then Some (map recode (m_vocab (tk_model t))) else None).
    { rewrite map_map. apply de_all_map. apply de_token_ser. }
    rewrite map_id in E1. unfold ser_tok. cbn [reread map field].
    remember (map (reread codec) (map jstr (tk_specials t))) as L1. remember (map (reread codec) (map ser_processor (tk_processors t))) as L2.
    remember (map (reread codec) (map ser_token (m_vocab (tk_model t)))) as L3. clear HeqL1 HeqL2 HeqL3.
    cbn -[de_all forallb]. rewrite E1. destruct (forallb plain (tk_specials t)); [|reflexivity]. cbn -[de_all forallb].
    rewrite E2. cbn -[de_all forallb]. rewrite E3. destruct (forallb _ (m_vocab _)); reflexivity.
  Qed.

  Lemma height_ser_tok t : height (ser_tok t) <= 127.
  Proof.
    assert (Hs : list_max (map height (map jstr (tk_specials t))) <= 0).
    { apply list_max_le. rewrite map_map. apply Forall_map. apply Forall_forall. intros; simpl; lia. }
    assert (Hp : list_max (map height (map ser_processor (tk_processors t))) <= 1).
    { apply list_max_le. rewrite map_map. apply Forall_map. apply Forall_forall. intros [|[]] _; simpl; lia. }
    assert (Hv : list_max (map height (map ser_token (m_vocab (tk_model t)))) <= 1).
    { apply list_max_le. rewrite map_map. apply Forall_map. apply Forall_forall. intros tk _. unfold ser_token.
      destruct (utf8_ok (st_value tk)), (st_keep tk); simpl; lia. }
    unfold ser_tok. cbn [height map field list_max fold_right jstr]. lia.
  Qed.

  Lemma loads_back pretty t : from_str num_val (write fmt_num pretty 0 (ser_tok t)) =
    if forallb plain (tk_specials t) && forallb (fun tk => f_is_finite (st_score tk)) (m_vocab (tk_model t))
    then Ok (tok_new (model_from (map recode (m_vocab (tk_model t)))) (tk_processors t) (tk_specials t))
    else Err SerdeJSON.
  Proof.
    unfold from_str. rewrite (proj2 (parse_document_iff num_val _ (reread codec (ser_tok t)))) by (apply write_document; [exact Hcodec|apply height_ser_tok]).
    rewrite de_tok_ser. now destruct (_ && _).
  Qed.

  Lemma b64_Utf8 s : Utf8 (b64_encode s).
  Proof.
    apply ascii_Utf8. destruct (b64_encode_spec s) as (vs & pad & H & _). induction H as [|v c vs cs Hv H IH]; constructor; [|exact IH].
    apply nth_error_In in Hv. unfold alphabet, B in Hv. revert c Hv. apply Forall_forall. repeat constructor.
  Qed.

  Lemma strings_ok_arr l : Forall strings_ok l -> strings_ok (JArr l).
  Proof. induction 1; simpl; auto. Qed.

  Lemma strings_ok_ser t : Forall Utf8 (tk_specials t) -> strings_ok (ser_tok t).
  Proof.
    intros H. assert (HB : forall s, Forall (fun b => (Byte.to_N b < 0x80)%N) (B s) -> Utf8 (B s)) by (intros; now apply ascii_Utf8).
    assert (H1 : strings_ok (JArr (map jstr (tk_specials t)))) by (apply strings_ok_arr, Forall_map; exact H).
    assert (H2 : strings_ok (JArr (map ser_processor (tk_processors t)))).
    { apply strings_ok_arr, Forall_map. apply Forall_forall. intros [|[]] _; simpl; repeat split; apply HB; repeat constructor. }
    assert (H3 : strings_ok (JArr (map ser_token (m_vocab (tk_model t))))).
    { apply strings_ok_arr, Forall_map. apply Forall_forall. intros tk _. unfold ser_token.
      destruct (utf8_ok (st_value tk)) eqn:E; [apply utf8_ok_spec in E|clear E]; destruct (st_keep tk); cbn [negb app];
        repeat split; try (apply HB; repeat constructor); try assumption; apply b64_Utf8. }
    unfold ser_tok. cbn [strings_ok field jstr]. cbn [strings_ok] in H1, H2, H3.
    repeat split; try assumption; apply HB; repeat constructor.
  Qed.

  Lemma written_Utf8 pretty t : Forall Utf8 (tk_specials t) -> Utf8 (write fmt_num pretty 0 (ser_tok t)).
  Proof. intros H. apply write_Utf8; [intros x Hx; apply Hcodec; exact Hx|now apply strings_ok_ser]. Qed.

  Lemma from_file_saved t : Forall Utf8 (tk_specials t) ->
    from_file num_val (Some (save_contents fmt_num t)) = from_str num_val (save_contents fmt_num t).
  Proof. intros H. unfold from_file. rewrite (proj2 (utf8_ok_spec _)); [reflexivity|]. now apply written_Utf8. Qed.

  Lemma de_tok_obj v t : de_tok v = Some t -> is_obj v.
  Proof. destruct v; simpl; try discriminate; auto. Qed.

  Lemma written_last pretty t : exists p, write fmt_num pretty 0 (ser_tok t) = p ++ [x7d].
  Proof.
    unfold ser_tok. cbn [write map bracket]. rewrite !app_comm_cons, !app_assoc. eexists. reflexivity.
  Qed.

  Lemma prefix_rejected t k : k < length (save_contents fmt_num t) ->
    from_file num_val (Some (firstn k (save_contents fmt_num t))) = Err IO \/
    from_file num_val (Some (firstn k (save_contents fmt_num t))) = Err SerdeJSON.
  Proof.
    intros Hk. unfold from_file. destruct (utf8_ok _); [|now left]. right. unfold from_str.
    destruct (parse_document num_val (firstn k (save_contents fmt_num t))) as [v|] eqn:E; [|reflexivity].
    destruct (de_tok v) as [t'|] eqn:Et; [|reflexivity]. exfalso. apply de_tok_obj in Et. apply parse_document_iff in E.
    assert (HD : Document num_val (save_contents fmt_num t) (reread codec (ser_tok t))) by (apply write_document; [exact Hcodec|apply height_ser_tok]).
    rewrite <- (firstn_skipn k (save_contents fmt_num t)) in HD.
    destruct (@Document_prefix _ _ _ _ _ Et E HD) as [Hw _].
    destruct (written_last true t) as [p Ep]. unfold save_contents in *. rewrite Ep in *.
    rewrite app_length in Hk. simpl in Hk. rewrite skipn_app in Hw. apply Forall_app in Hw as [_ Hw].
    replace (k - length p) with 0 in Hw by lia. simpl in Hw. inversion Hw as [|? ? Hb _]; subst. destruct Hb as [?|[?|[?|?]]]; discriminate.
  Qed.
End Round.

Lemma new_first_occurrences m ps sps : tok_new m ps (first_occurrences sps) = tok_new m ps sps.
Proof.
  unfold tok_new. induction sps as [|x sps IH] using rev_ind; [reflexivity|].
  rewrite first_occurrences_snoc, (adds_app _ sps [x]).
  destruct (in_dec (list_eq_dec Byte.byte_eq_dec) x sps) as [Hin|Hin]; [|rewrite adds_app; now rewrite IH].
  rewrite IH. simpl. unfold add_special_token.
  assert (Hok := specials_ok_new m ps sps). apply (fun H => proj2 (specials_ok_contains x H)) in Hok as Hc.
  - unfold tok_new in Hc. now rewrite Hc.
  - rewrite tok_new_specials. now apply first_occurrences_In.
Qed.

Lemma from_str_iff num_val s t : from_str num_val s = Ok t <->
  exists v vocab ps sps, Document num_val s v /\ Is_tokenizer v vocab ps sps /\ t = tok_new (model_from vocab) ps sps.
Proof.
  unfold from_str. split.
  - destruct (parse_document num_val s) as [v|] eqn:E; [|discriminate]. destruct (de_tok v) as [t'|] eqn:Et; [|discriminate].
    intros [= <-]. apply parse_document_iff in E. apply de_tok_iff in Et as (vocab & ps & sps & H & ->). exists v, vocab, ps, sps. auto.
  - intros (v & vocab & ps & sps & HD & HT & ->). apply parse_document_iff in HD. rewrite HD.
    now rewrite (proj2 (de_tok_iff v _) (ex_intro _ vocab (ex_intro _ ps (ex_intro _ sps (conj HT eq_refl))))).
Qed.

Lemma from_str_total num_val s : (exists t, from_str num_val s = Ok t) \/ from_str num_val s = Err SerdeJSON.
Proof. unfold from_str. destruct (parse_document num_val s) as [v|]; [|auto]. destruct (de_tok v) as [t|]; eauto. Qed.
