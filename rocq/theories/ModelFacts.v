(** Small consequences used by the property files. *)
From Coq Require Import Sorting.
From Verif Require Import Base BaseProofs F64 Utf8 Trie TrieProofs Model SpecModel SpecUtf8 ModelProofs EncodeProofs Utf8Proofs Processor Tokenizer TokenizerProofs.
Set Implicit Arguments.

Lemma default_vocab_fits : fits new_default_vocab.
Proof.
  split; [reflexivity|]. unfold new_default_vocab. apply Forall_forall. intros t Ht.
  apply in_map_iff in Ht as (n & <- & _). simpl. destruct (Byte.of_N (N.of_nat n)); reflexivity.
Qed.

Lemma default_vocab_covers s : covers new_default_vocab s.
Proof.
  apply Forall_forall. intros b _. unfold new_default_vocab.
  exists (ST [b] (fdiv f1 (f64_of_Z 256)) false). split; [|reflexivity].
  apply in_map_iff. exists (N.to_nat (Byte.to_N b)).
  rewrite N2Nat.id, Byte.of_to_N. split; [reflexivity|]. apply in_seq.
  assert (H := Byte.to_N_bounded b). lia.
Qed.

Lemma default_vocab_total rnd s dropout : exists ids, encode (model_from new_default_vocab) rnd s dropout = Ok ids.
Proof. apply encode_covered; [apply default_vocab_fits|apply default_vocab_covers]. Qed.

Lemma model_decode_spec vocab ids out : fits vocab ->
  decode (model_from vocab) ids = Ok out ->
  Utf8 out /\ exists bs, Spells vocab ids bs /\ Lossy bs out /\ (Utf8 bs -> out = bs).
Proof.
  intros Hf H. unfold decode in H. destruct (decode_bytes (model_from vocab) ids []) as [bs| | |] eqn:E; try discriminate.
  simpl in H. injection H as <-. apply (decode_bytes_Spells ids bs Hf) in E.
  split; [apply lossy_Utf8|]. exists bs. split; [exact E|]. split; [apply from_utf8_lossy_spec|apply lossy_valid].
Qed.

Lemma decode_bytes_bad vocab a id b : fits vocab -> Forall (fun i => (i < N.of_nat (length vocab))%N) a ->
  (N.of_nat (length vocab) <= id)%N -> forall acc,
  decode_bytes (model_from vocab) (a ++ id :: b) acc = Err (TokenIdOutOfBounds id).
Proof.
  intros [Hf _] Ha Hid.
  assert (Hs : as_u32 (vocab_size (model_from vocab)) = N.of_nat (length vocab)).
  { unfold vocab_size. rewrite model_from_vocab. now apply as_u32_small. }
  induction Ha as [|x a Hx Ha IH]; intros acc; cbn [app decode_bytes]; rewrite Hs.
  - now replace (N.of_nat (length vocab) <=? id)%N with true by lia.
  - replace (N.of_nat (length vocab) <=? x)%N with false by lia. unfold index. rewrite model_from_vocab.
    destruct (nth_error vocab (N.to_nat x)) eqn:E; [apply IH|]. apply nth_error_None in E. lia.
Qed.

Lemma model_decode_total vocab ids : fits vocab ->
  (exists out, decode (model_from vocab) ids = Ok out) \/
  (exists a id b, ids = a ++ id :: b /\ Forall (fun i => (i < N.of_nat (length vocab))%N) a /\
     (N.of_nat (length vocab) <= id)%N /\ decode (model_from vocab) ids = Err (TokenIdOutOfBounds id)).
Proof.
  intros Hf. destruct (position_special (N.of_nat (length vocab)) ids) as [idx|] eqn:E.
  - apply position_some in E as (a & id & b & -> & _ & Ha & Hid). right. exists a, id, b.
    split; [reflexivity|]. split; [exact Ha|]. split; [exact Hid|]. unfold decode.
    now rewrite (decode_bytes_bad b Hf Ha Hid).
  - apply position_none in E. destruct (decode_run Hf E) as (bs & out & _ & _ & H). left. now exists out.
Qed.

Lemma cps_latest vocab s id len : fits vocab ->
  In (id, len) (common_prefix_search (model_from vocab) s) -> exists t, latest vocab id t.
Proof. intros Hf H. apply (cps_In _ _ _ Hf) in H as (t & r & Hl & _). eauto. Qed.

Lemma old_ids_decode vocab id t : fits vocab -> token_at vocab id t ->
  exists out, decode (model_from vocab) [id] = Ok out /\ Lossy (st_value t) out /\
              id_to_token (model_from vocab) id = Some t.
Proof.
  intros Hf Ht. assert (HS : Spells vocab [id] (st_value t)).
  { rewrite <- (app_nil_r (st_value t)). constructor; [exact Ht|constructor]. }
  exists (from_utf8_lossy (st_value t)). unfold decode. rewrite (proj2 (decode_bytes_Spells _ _ Hf) HS).
  split; [reflexivity|]. split; [apply from_utf8_lossy_spec|].
  apply Spells_lt in HS. inversion HS as [|? ? Hlt _]; subst.
  unfold id_to_token, vocab_size. rewrite model_from_vocab. destruct Hf as [Hf _]. rewrite as_u32_small by exact Hf.
  replace (N.of_nat (length vocab) <=? id)%N with false by lia. exact Ht.
Qed.

Lemma search_buffer vocab s p items it : fits vocab ->
  ti_steps (t_common_prefix_search (m_trie (model_from vocab)) s p) items it ->
  exists read, s = read ++ ti_iterator it /\ ti_prefix it = p ++ read /\
    (items = [] /\ read = [] \/
     exists items' id len t, items = items' ++ [(id, len)] /\ latest vocab id t /\ st_value t = read /\ read <> []).
Proof.
  intros [Hf _] H. apply (@ti_steps_spec _ (m_trie (model_from vocab)) s p) in H as (c & Hs & Hp & _ & Hc); [|reflexivity].
  exists c. split; [exact Hs|]. split; [exact Hp|]. destruct Hc as [Hc|(items' & [id len] & Hi & Hd & Hn)]; [now left|right].
  rewrite trie_last in Hd. destruct (last_from 0 vocab c) as [i|] eqn:E; [|discriminate]. simpl in Hd. injection Hd as <- <-.
  assert (Hb := last_from_bound _ _ E). apply last_from_latest in E as (t & Hl & Hv).
  exists items', (as_u32 i), (as_u32 (length c)), t. split; [exact Hi|]. split; [|now split].
  rewrite as_u32_small by lia. exact Hl.
Qed.
