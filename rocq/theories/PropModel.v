(** Properties of the unigram model (src/model.rs).  Statements use only the
    model's functions, SpecModel.v and SpecUtf8.v. *)
From Coq Require Import Sorting.
From Verif Require Import Base F64 Utf8 Trie Model SpecModel SpecUtf8 EncodeProofs ModelProofs Utf8Proofs TrieProofs BaseProofs F64Proofs TokenizerProofs ModelFacts.
Set Implicit Arguments.

(** A small vocabulary: "a", "b", "ab", the two bytes of e-acute together and alone,
    a second "a" (id 5) with another score, and the empty token. *)
Definition ex_vocab : list scored_token :=
  [ST [x61] (f64_of_Z (-2)) false; ST [x62] (f64_of_Z (-3)) true; ST [x61; x62] (f64_of_Z (-4)) false;
   ST [xc3; xa9] (f64_of_Z (-1)) false; ST [xc3] (f64_of_Z (-7)) false; ST [x61] (f64_of_Z (-1)) false;
   ST [] (f64_of_Z 5) false].
Definition no_rnd : nat -> f64 := fun _ => f0.

Lemma ex_fits : fits ex_vocab.
Proof. split; [reflexivity|]. repeat constructor. Qed.
Lemma ex_finite : finite_scores ex_vocab.
Proof. repeat constructor. Qed.

(** ** C01 *)
Theorem C01_encode_spells : forall vocab rnd s dropout ids,
  fits vocab -> encode (model_from vocab) rnd s dropout = Ok ids ->
  Spells vocab ids s /\ Forall (fun id => (id < N.of_nat (length vocab))%N) ids.
Proof. exact (fun v rnd s d ids Hf H => let HS := Cut_Spells (encode_sound Hf rnd s d H) in conj HS (Spells_lt HS)). Qed.
Print Assumptions C01_encode_spells.
Example C01_example : encode (model_from ex_vocab) no_rnd [x61; x61; x62; xc3; xa9] f0 = Ok [5; 2; 3]%N /\
  Spells ex_vocab [5; 2; 3]%N [x61; x61; x62; xc3; xa9].
Proof.
  assert (H : encode (model_from ex_vocab) no_rnd [x61; x61; x62; xc3; xa9] f0 = Ok [5; 2; 3]%N) by (vm_compute; reflexivity).
  split; [exact H|]. exact (proj1 (C01_encode_spells _ _ _ ex_fits H)).
Qed.

(** ** C02 *)
Theorem C02_encode_optimal : forall vocab rnd s dropout ids,
  fits vocab -> finite_scores vocab -> fleb dropout f0 = true ->
  encode (model_from vocab) rnd s dropout = Ok ids ->
  forall ids', Cut vocab ids' s -> fleb (score_of vocab ids') (score_of vocab ids) = true.
Proof. intros; eapply encode_optimal; eassumption. Qed.
Print Assumptions C02_encode_optimal.
(** For a vocabulary without repeated values and without the empty token, among all spellings. *)
Theorem C02_encode_optimal_spellings : forall vocab rnd s dropout ids,
  fits vocab -> finite_scores vocab -> distinct_values vocab -> no_empty_token vocab -> fleb dropout f0 = true ->
  encode (model_from vocab) rnd s dropout = Ok ids ->
  forall ids', Spells vocab ids' s -> fleb (score_of vocab ids') (score_of vocab ids) = true.
Proof. intros; eapply encode_optimal; try eassumption; apply Spells_is_Cut; assumption. Qed.
(** No dropout, whatever the draws, reaches a better score than encoding without dropout. *)
Theorem C02_dropout_never_better : forall vocab rnd rnd' s dropout ids ids',
  fits vocab -> finite_scores vocab ->
  encode (model_from vocab) rnd s f0 = Ok ids -> encode (model_from vocab) rnd' s dropout = Ok ids' ->
  fleb (score_of vocab ids') (score_of vocab ids) = true.
Proof. intros; eapply encode_optimal with (dropout := f0); try eassumption; [reflexivity|eapply encode_sound; eassumption]. Qed.
Print Assumptions C02_dropout_never_better.
Definition ex_vocab' := firstn 5 ex_vocab.
Example C02_example :
  fits ex_vocab' /\ finite_scores ex_vocab' /\ distinct_values ex_vocab' /\ no_empty_token ex_vocab' /\
  encode (model_from ex_vocab') no_rnd [x61; x62; x61] f0 = Ok [2; 0]%N /\
  Spells ex_vocab' [0; 1; 0]%N [x61; x62; x61] /\ Cut ex_vocab' [0; 1; 0]%N [x61; x62; x61].
Proof.
  assert (Hd : distinct_values ex_vocab') by (repeat constructor; simpl; intuition discriminate).
  assert (Hn : no_empty_token ex_vocab') by (repeat constructor; discriminate).
  assert (HS : Spells ex_vocab' [0; 1; 0]%N [x61; x62; x61]).
  { apply (@Spells_cons _ 0%N (ST [x61] (f64_of_Z (-2)) false) [1; 0]%N [x62; x61]); [reflexivity|].
    apply (@Spells_cons _ 1%N (ST [x62] (f64_of_Z (-3)) true) [0]%N [x61]); [reflexivity|].
    apply (@Spells_cons _ 0%N (ST [x61] (f64_of_Z (-2)) false) [] []); [reflexivity|constructor]. }
  split; [split; [reflexivity|repeat constructor]|]. split; [repeat constructor|]. split; [exact Hd|]. split; [exact Hn|].
  split; [vm_compute; reflexivity|]. split; [exact HS|]. exact (Spells_is_Cut Hd Hn HS).
Qed.

(** ** C03 *)
(** The last token: the rest is the encoding of the remaining prefix, and every
    other way to end scores no more -- strictly less if it ends in a longer token. *)
Theorem C03_last_token : forall vocab rnd s dropout ids,
  fits vocab -> finite_scores vocab -> fleb dropout f0 = true ->
  encode (model_from vocab) rnd s dropout = Ok ids -> s <> [] ->
  exists ids1 id t s1,
    ids = ids1 ++ [id] /\ s = s1 ++ st_value t /\ latest vocab id t /\ st_value t <> [] /\
    encode (model_from vocab) rnd s1 dropout = Ok ids1 /\
    forall id2 t2 s2 ids2,
      s = s2 ++ st_value t2 -> latest vocab id2 t2 -> st_value t2 <> [] ->
      encode (model_from vocab) rnd s2 dropout = Ok ids2 ->
      fleb (score_of vocab (ids2 ++ [id2])) (score_of vocab ids) = true /\
      (length (st_value t) < length (st_value t2) ->
         fltb (score_of vocab (ids2 ++ [id2])) (score_of vocab ids) = true).
Proof. intros; eapply encode_last; eassumption. Qed.
Print Assumptions C03_last_token.
Theorem C03_empty_input : forall vocab rnd dropout, encode (model_from vocab) rnd [] dropout = Ok [].
Proof. exact (fun _ _ _ => eq_refl). Qed.
Theorem C03_random_free : forall vocab rnd rnd' s dropout dropout',
  fits vocab -> fleb dropout f0 = true -> fleb dropout' f0 = true ->
  encode (model_from vocab) rnd s dropout = encode (model_from vocab) rnd' s dropout'.
Proof. intros; eapply encode_random_free; eassumption. Qed.
Print Assumptions C03_random_free.
(** A tie: "a"+"b" and "ab" both score -4 (a has id 5, score -1); the longer last token "ab" wins. *)
Example C03_example : encode (model_from ex_vocab) no_rnd [x62; x61; x62] f0 = Ok [1; 2]%N /\
  feqb (score_of ex_vocab [1; 2]%N) (score_of ex_vocab [1; 5; 1]%N) = true.
Proof. split; vm_compute; reflexivity. Qed.

(** ** C04 *)
Theorem C04_fails_iff_no_spelling : forall vocab rnd s dropout,
  fits vocab -> fleb dropout f0 = true ->
  ((exists ids, Spells vocab ids s) /\ (exists ids, encode (model_from vocab) rnd s dropout = Ok ids)) \/
  ((forall ids, ~ Spells vocab ids s) /\
   encode (model_from vocab) rnd s dropout = Err (NoPath (length s) (length s))).
Proof. intros; eapply encode_iff; eassumption. Qed.
Print Assumptions C04_fails_iff_no_spelling.
(** For any dropout: no panic, no other error. *)
Theorem C04_never_panics : forall vocab rnd s dropout, fits vocab ->
  (exists ids, encode (model_from vocab) rnd s dropout = Ok ids) \/
  encode (model_from vocab) rnd s dropout = Err (NoPath (length s) (length s)).
Proof. intros; eapply encode_total; eassumption. Qed.
Print Assumptions C04_never_panics.
Example C04_example :
  encode (model_from ex_vocab) no_rnd [x61; xa9; x62] f0 = Err (NoPath 3 3) /\
  encode (model_from ex_vocab) no_rnd [x61; xc3; xa9; x62] f0 = Ok [5; 3; 1]%N.
Proof. split; vm_compute; reflexivity. Qed.

(** ** C05 *)
Theorem C05_covered_input_encodes : forall vocab rnd s dropout,
  fits vocab -> covers vocab s -> exists ids, encode (model_from vocab) rnd s dropout = Ok ids.
Proof. intros; eapply encode_covered; eassumption. Qed.
Print Assumptions C05_covered_input_encodes.
Example C05_example : covers ex_vocab [x61; x62; xc3; x61] /\
  encode (model_from ex_vocab) no_rnd [x61; x62; xc3; x61] fnan = Ok [5; 1; 4; 5]%N.
Proof.
  split; [|vm_compute; reflexivity]. apply Forall_forall. intros b Hb.
  simpl in Hb. destruct Hb as [<-|[<-|[<-|[<-|[]]]]].
  - exists (ST [x61] (f64_of_Z (-2)) false). simpl. auto.
  - exists (ST [x62] (f64_of_Z (-3)) true). simpl. auto.
  - exists (ST [xc3] (f64_of_Z (-7)) false). simpl. auto 7.
  - exists (ST [x61] (f64_of_Z (-2)) false). simpl. auto.
Qed.
(** The default vocabulary (all 256 bytes) encodes everything. *)
Theorem C05_default_vocab : forall rnd s dropout, exists ids, encode (model_from new_default_vocab) rnd s dropout = Ok ids.
Proof. exact default_vocab_total. Qed.
Print Assumptions C05_default_vocab.

(** ** C06 *)
Theorem C06_full_dropout_single_bytes : forall vocab rnd s dropout ids,
  fits vocab -> fleb f1 dropout = true -> (forall k, fltb (rnd k) f1 = true) ->
  encode (model_from vocab) rnd s dropout = Ok ids ->
  Forall (fun id => exists t, token_at vocab id t /\ length (st_value t) = 1) ids.
Proof. intros; eapply encode_drop_all; [eassumption|apply drop_all_one; eassumption|eassumption]. Qed.
Print Assumptions C06_full_dropout_single_bytes.
(** A NaN dropout drops everything, too. *)
Theorem C06_nan_dropout_single_bytes : forall vocab rnd s ids,
  fits vocab -> encode (model_from vocab) rnd s fnan = Ok ids ->
  Forall (fun id => exists t, token_at vocab id t /\ length (st_value t) = 1) ids.
Proof. intros; eapply encode_drop_all; [eassumption|apply drop_all_nan|eassumption]. Qed.
Theorem C06_no_dropout_random_free : forall vocab rnd rnd' s dropout,
  fits vocab -> fleb dropout f0 = true ->
  encode (model_from vocab) rnd s dropout = encode (model_from vocab) rnd' s dropout.
Proof. intros; eapply encode_random_free; eassumption. Qed.
Print Assumptions C06_nan_dropout_single_bytes.
Example C06_example :
  encode (model_from ex_vocab) (fun _ => fhalf) [x61; x62; x61; x62] f1 = Ok [5; 1; 5; 1]%N /\
  encode (model_from ex_vocab) (fun _ => fhalf) [xc3; xa9] f1 = Err (NoPath 2 2) /\
  (forall k : nat, fltb ((fun _ => fhalf) k) f1 = true).
Proof. split; [|split]; [vm_compute; reflexivity|vm_compute; reflexivity|intros; vm_compute; reflexivity]. Qed.

(** ** C12 (the bytes of one run of base tokens) *)
Theorem C12_model_decode : forall vocab ids out, fits vocab ->
  decode (model_from vocab) ids = Ok out ->
  Utf8 out /\ exists bs, Spells vocab ids bs /\ Lossy bs out /\ (Utf8 bs -> out = bs).
Proof. exact model_decode_spec. Qed.
Print Assumptions C12_model_decode.
Theorem C12_model_decode_total : forall vocab ids, fits vocab ->
  (exists out, decode (model_from vocab) ids = Ok out) \/
  (exists a id b, ids = a ++ id :: b /\ Forall (fun i => (i < N.of_nat (length vocab))%N) a /\
     (N.of_nat (length vocab) <= id)%N /\ decode (model_from vocab) ids = Err (TokenIdOutOfBounds id)).
Proof. exact model_decode_total. Qed.
Print Assumptions C12_model_decode_total.
(** "a", then a lone lead byte, then "b". *)
Example C12_example : decode (model_from ex_vocab) [0; 4; 1; 3]%N = Ok ([x61] ++ encode_char 0xFFFD ++ [x62; xc3; xa9]) /\
  decode (model_from ex_vocab) [0; 9; 12]%N = Err (TokenIdOutOfBounds 9).
Proof. split; vm_compute; reflexivity. Qed.

(** ** C15 (model part) *)
Theorem C15_model_add_tokens : forall vocab toks,
  add_tokens (model_from vocab) toks = model_from (vocab ++ toks).
Proof. exact add_tokens_from. Qed.
Print Assumptions C15_model_add_tokens.
Example C15_model_example : token_to_id (add_tokens (model_from (firstn 2 ex_vocab)) (skipn 2 ex_vocab)) [x61; x62] = Some 2%N.
Proof. vm_compute. reflexivity. Qed.

(** ** C16 *)
Theorem C16_token_to_id_latest : forall vocab v id, fits vocab ->
  token_to_id (model_from vocab) v = Some id <-> exists t, latest vocab id t /\ st_value t = v.
Proof. exact token_to_id_iff. Qed.
Print Assumptions C16_token_to_id_latest.
Theorem C16_encode_latest : forall vocab rnd s dropout ids, fits vocab ->
  encode (model_from vocab) rnd s dropout = Ok ids -> Forall (fun id => exists t, latest vocab id t) ids.
Proof. intros; eapply Cut_latest, encode_sound; eassumption. Qed.
Theorem C16_search_latest : forall vocab s id len, fits vocab ->
  In (id, len) (common_prefix_search (model_from vocab) s) -> exists t, latest vocab id t.
Proof. exact cps_latest. Qed.
(** An older duplicate still decodes to its bytes. *)
Theorem C16_old_ids_decode : forall vocab id t, fits vocab -> token_at vocab id t ->
  exists out, decode (model_from vocab) [id] = Ok out /\ Lossy (st_value t) out /\
              id_to_token (model_from vocab) id = Some t.
Proof. exact old_ids_decode. Qed.
Print Assumptions C16_old_ids_decode.
Example C16_example :
  token_to_id (model_from ex_vocab) [x61] = Some 5%N /\ decode (model_from ex_vocab) [0; 5]%N = Ok [x61; x61] /\
  common_prefix_search (model_from ex_vocab) [x61; x62; x62] = [(5, 1); (2, 2)]%N.
Proof. repeat split; vm_compute; reflexivity. Qed.

(** ** C17 *)
Theorem C17_search_sound_complete : forall vocab s id len, fits vocab ->
  In (id, len) (common_prefix_search (model_from vocab) s) <->
  exists t r, latest vocab id t /\ st_value t <> [] /\ s = st_value t ++ r /\ len = N.of_nat (length (st_value t)).
Proof. exact cps_In. Qed.
Print Assumptions C17_search_sound_complete.
Theorem C17_search_sorted : forall vocab s, fits vocab ->
  StronglySorted N.lt (map snd (common_prefix_search (model_from vocab) s)).
Proof. exact cps_sorted. Qed.
Theorem C17_search_ids : forall vocab s id len, fits vocab ->
  In (id, len) (common_prefix_search (model_from vocab) s) ->
  token_to_id (model_from vocab) (firstn (N.to_nat len) s) = Some id.
Proof. exact cps_token_to_id. Qed.
Theorem C17_search_complete : forall vocab s t r, fits vocab ->
  In t vocab -> st_value t <> [] -> s = st_value t ++ r ->
  exists id, In (id, N.of_nat (length (st_value t))) (common_prefix_search (model_from vocab) s) /\
             token_to_id (model_from vocab) (st_value t) = Some id.
Proof. exact cps_complete. Qed.
Print Assumptions C17_search_complete.
(** However many items have been taken from the iterator, the caller's buffer holds what it held before plus the
    bytes read so far, which are the bytes of the last item. *)
Theorem C17_search_buffer : forall vocab s p items it, fits vocab ->
  ti_steps (t_common_prefix_search (m_trie (model_from vocab)) s p) items it ->
  exists read, s = read ++ ti_iterator it /\ ti_prefix it = p ++ read /\
    (items = [] /\ read = [] \/
     exists items' id len t, items = items' ++ [(id, len)] /\ latest vocab id t /\ st_value t = read /\ read <> []).
Proof. exact search_buffer. Qed.
Print Assumptions C17_search_buffer.
Example C17_example :
  common_prefix_search (model_from ex_vocab) [x61; x62; x61] = [(5, 1); (2, 2)]%N /\
  ti_prefix (snd (ti_next (t_common_prefix_search (m_trie (model_from ex_vocab)) [x61; x62] [x7a]))) = [x7a; x61].
Proof. split; vm_compute; reflexivity. Qed.
