(** Properties of the tokenizer (src/tokenizer.rs, src/processor.rs).

    The statements are about tokenizers [tok_new (model_from vocab) ps sps]; by [C15_history] below these
    are all the tokenizers any sequence of add_special_tokens and add_base_tokens calls can lead to.
    [normalize] stands for the four Unicode normalisation forms: any functions that
    turn valid UTF-8 into valid UTF-8. *)
From Coq Require Import Permutation.
From Verif Require Import Base BaseProofs F64 Utf8 Trie Model SpecModel SpecUtf8 Processor Tokenizer SpecTokenizer
  EncodeProofs ModelProofs Utf8Proofs SplitProofs ProcessorProofs TokenizerProofs TokenizerFacts PropModel.
Set Implicit Arguments.

Definition keeps_utf8 (normalize : unicode_form -> bytes -> bytes) : Prop :=
  forall f s, Utf8 s -> Utf8 (normalize f s).

(** Example: special tokens "<s>", "<", "<s>" (registered once); text "a<s>\r\nb". *)
Definition ex_sps : list bytes := [[x3c; x73; x3e]; [x3c]; [x3c; x73; x3e]].
Definition ex_vocab2 : list scored_token := ex_vocab ++ [ST [x0a] (f64_of_Z (-1)) false; ST [x0d] (f64_of_Z (-1)) false; ST [x3e] (f64_of_Z (-1)) false].
Definition ex_tok ps := tok_new (model_from ex_vocab2) ps ex_sps.
Definition ex_norm : unicode_form -> bytes -> bytes := fun _ s => s.
Definition ex_text : bytes := [x61; x3c; x73; x3e; x0d; x0a; x62; x3c].
Definition ex_draws : nat -> nat -> f64 := fun _ _ => f0.

Lemma ascii_text cs : Forall (fun c => (c < 128)%N) cs -> Utf8 (map byte_of_N cs).
Proof.
  intros H. exists cs. split.
  - eapply Forall_impl; [|exact H]. intros c Hc. unfold scalar. simpl in Hc. lia.
  - unfold encode_string. induction H as [|c cs Hc Hcs IH]; [reflexivity|]. simpl. rewrite <- IH.
    unfold encode_char. now replace (c <? 128)%N with true by lia.
Qed.

Lemma ex_text_valid : Utf8 ex_text.
Proof. apply (@ascii_text [0x61; 0x3c; 0x73; 0x3e; 0x0d; 0x0a; 0x62; 0x3c]%N). repeat constructor. Qed.

Lemma ex_tok_fits : tok_fits ex_vocab2 ex_sps.
Proof.
  split; [split; [reflexivity|repeat constructor]|]. split; [reflexivity|].
  assert (H1 : Utf8 [x3c; x73; x3e]) by (apply (@ascii_text [0x3c; 0x73; 0x3e]%N); repeat constructor).
  assert (H2 : Utf8 [x3c]) by (apply (@ascii_text [0x3c]%N); repeat constructor).
  repeat (constructor; auto).
Qed.

(** ** C01 at the level of the tokenizer *)
Theorem C01_encode_ordinary : forall normalize vocab ps sps rnd s dropout ids, fits vocab ->
  encode_ordinary normalize (tok_new (model_from vocab) ps sps) rnd s dropout = Ok ids ->
  Spells vocab ids (preprocess_all normalize ps s).
Proof. intros; eapply encode_ordinary_Spells; eassumption. Qed.
Print Assumptions C01_encode_ordinary.
Example C01_ordinary_example :
  encode_ordinary ex_norm (ex_tok [Crlf]) (fun _ => f0) [x61; x0d; x0a; x62] f0 = Ok [5; 7; 1]%N.
Proof. vm_compute. reflexivity. Qed.

(** ** C07 *)
Theorem C07_encode_decode : forall normalize vocab sps fuel rnd s dropout ids,
  tok_fits vocab sps -> Utf8 s ->
  tok_encode normalize fuel (tok_new (model_from vocab) [] sps) rnd s dropout = Ok ids ->
  tok_decode (tok_new (model_from vocab) [] sps) ids true = Ok s.
Proof. intros; eapply round_identity; eassumption. Qed.
Print Assumptions C07_encode_decode.
Example C07_example :
  tok_encode ex_norm 9 (ex_tok []) ex_draws ex_text f0 = Ok [5; 10; 8; 7; 1; 11]%N /\
  tok_decode (ex_tok []) [5; 10; 8; 7; 1; 11]%N true = Ok ex_text /\
  tok_decode (ex_tok []) [5; 10; 8; 7; 1; 11]%N false = Ok [x61; x0d; x0a; x62].
Proof. repeat split; vm_compute; reflexivity. Qed.

(** ** C08 *)
Theorem C08_ordinary_round_trip : forall normalize vocab ps sps rnd s dropout ids incl,
  keeps_utf8 normalize -> tok_fits vocab sps -> Utf8 s ->
  encode_ordinary normalize (tok_new (model_from vocab) ps sps) rnd s dropout = Ok ids ->
  tok_decode (tok_new (model_from vocab) ps sps) ids incl = Ok (preprocess_all normalize ps s).
Proof. intros normalize vocab ps sps rnd s d ids incl Hn (H1 & H2 & H3) Hs H. eapply decode_encode_ordinary; eassumption. Qed.
Print Assumptions C08_ordinary_round_trip.
(** Processors run in list order. *)
Theorem C08_processors_in_order : forall normalize ps p s,
  preprocess_all normalize [] s = s /\
  preprocess_all normalize (p :: ps) s =
  preprocess_all normalize ps (match p with Crlf => str_replace s [x0d; x0a] [x0a] | Unicode f => normalize f s end).
Proof. intros; split; [reflexivity|]; destruct p; reflexivity. Qed.
Theorem C08_round_trip : forall normalize vocab ps sps fuel rnd s dropout ids incl pcs,
  keeps_utf8 normalize -> tok_fits vocab sps -> Utf8 s -> length s < fuel ->
  Pieces (first_occurrences sps) s pcs ->
  tok_encode normalize fuel (tok_new (model_from vocab) ps sps) rnd s dropout = Ok ids ->
  tok_decode (tok_new (model_from vocab) ps sps) ids incl =
  Ok (concat (map (fun pc => match pc with
                             | Special k => if incl then nth k (first_occurrences sps) [] else []
                             | Plain p => preprocess_all normalize ps p
                             end) pcs)).
Proof. intros; eapply round_pieces; eassumption. Qed.
Print Assumptions C08_round_trip.
Example C08_example :
  tok_encode ex_norm 9 (ex_tok [Crlf]) ex_draws ex_text f0 = Ok [5; 10; 7; 1; 11]%N /\
  tok_decode (ex_tok [Crlf]) [5; 10; 7; 1; 11]%N true = Ok [x61; x3c; x73; x3e; x0a; x62; x3c] /\
  encode_ordinary ex_norm (ex_tok [Crlf]) (fun _ => f0) [x0d; x0a; x62] f0 = Ok [7; 1]%N.
Proof. repeat split; vm_compute; reflexivity. Qed.

(** ** C09 *)
(** [Pieces] (SpecTokenizer.v) says how a text is cut; it cuts every text in exactly one way... *)
Theorem C09_pieces_exist : forall vocab sps s, tok_fits vocab sps -> Forall (fun sp => sp <> []) sps -> Utf8 s ->
  exists pcs, Pieces (first_occurrences sps) s pcs.
Proof.
  intros vocab sps s Hok Hne Hs.
  exact (pieces_exist (fun _ x => x) (fun _ _ H => H) [] Hok Hs Hne).
Qed.
Theorem C09_pieces_unique : forall specials s pcs pcs', Pieces specials s pcs -> Pieces specials s pcs' -> pcs = pcs'.
Proof. intros; eapply Pieces_fun; eassumption. Qed.
(** ... the pieces make up the text... *)
Theorem C09_pieces_concat : forall specials s pcs, Pieces specials s pcs -> concat (map (piece_text specials) pcs) = s.
Proof. intros; eapply Pieces_text; eassumption. Qed.
(** ... and encode encodes each of them. *)
Theorem C09_encode_by_pieces : forall normalize vocab ps sps fuel rnd s dropout ids pcs,
  keeps_utf8 normalize -> tok_fits vocab sps -> Utf8 s -> length s < fuel ->
  Pieces (first_occurrences sps) s pcs ->
  tok_encode normalize fuel (tok_new (model_from vocab) ps sps) rnd s dropout = Ok ids <->
  exists parts, ids = concat parts /\ length parts = length pcs /\
    forall i pc part, nth_error pcs i = Some pc -> nth_error parts i = Some part ->
      match pc with
      | Special k => part = [N.of_nat (length vocab + k)]
      | Plain p => encode_ordinary normalize (tok_new (model_from vocab) ps sps) (rnd i) p dropout = Ok part
      end.
Proof. intros; eapply encode_pieces_ok; eassumption. Qed.
Print Assumptions C09_encode_by_pieces.
Theorem C09_encode_fails_by_pieces : forall normalize vocab ps sps fuel rnd s dropout e pcs,
  keeps_utf8 normalize -> tok_fits vocab sps -> Utf8 s -> length s < fuel ->
  Pieces (first_occurrences sps) s pcs ->
  tok_encode normalize fuel (tok_new (model_from vocab) ps sps) rnd s dropout = Err e <->
  exists i p, nth_error pcs i = Some (Plain p) /\
    encode_ordinary normalize (tok_new (model_from vocab) ps sps) (rnd i) p dropout = Err e /\
    forall i' p', i' < i -> nth_error pcs i' = Some (Plain p') ->
      exists ids, encode_ordinary normalize (tok_new (model_from vocab) ps sps) (rnd i') p' dropout = Ok ids.
Proof. intros; eapply encode_pieces_err; eassumption. Qed.
Print Assumptions C09_encode_fails_by_pieces.
Example C09_example : Pieces (first_occurrences ex_sps) ex_text [Plain [x61]; Special 0; Plain [x0d; x0a; x62]; Special 1] /\
  first_occurrences ex_sps = [[x3c; x73; x3e]; [x3c]].
Proof.
  split; [|reflexivity].
    assert (H0 : special_at (first_occurrences ex_sps) [x3c; x73; x3e; x0d; x0a; x62; x3c] 0).
    { split; [exists [x3c; x73; x3e]; split; [reflexivity|eexists; reflexivity]|]. intros k' sp' Hk. lia. }
    assert (H1 : special_at (first_occurrences ex_sps) [x3c] 1).
    { split; [exists [x3c]; split; [reflexivity|exists []; reflexivity]|]. intros [|k'] sp' Hk; [|lia].
      intros [= <-] (r & Hr). discriminate. }
    apply (@Pieces_plain _ [x61] [x3c; x73; x3e; x0d; x0a; x62; x3c]); [discriminate| |eauto|].
    { intros a b Hab Hb sp Hin (r & Hr). destruct a as [|? [|? ?]]; simpl in Hab; [subst b| |discriminate].
      - destruct Hin as [<-|[<-|[]]]; discriminate.
      - injection Hab as <- <-. congruence. }
    apply (@Pieces_special _ 0 [x3c; x73; x3e] [x0d; x0a; x62; x3c]); [discriminate|exact H0|reflexivity|].
    apply (@Pieces_plain _ [x0d; x0a; x62] [x3c]); [discriminate| |eauto|].
    { intros a b Hab Hb sp Hin (r & Hr).
      assert (exists x b', b = x :: b' /\ x <> x3c) as (x & b' & -> & Hx).
      { destruct a as [|? [|? [|? ?]]]; simpl in Hab.
        - subst b. do 2 eexists. split; [reflexivity|discriminate].
        - injection Hab as _ <-. do 2 eexists. split; [reflexivity|discriminate].
        - injection Hab as _ _ <-. do 2 eexists. split; [reflexivity|discriminate].
        - injection Hab as _ _ _ Hab. symmetry in Hab. apply app_eq_nil in Hab as [_ Hab]. congruence. }
      destruct Hin as [<-|[<-|[]]]; simpl in Hr; injection Hr as Hr _; congruence. }
    apply (@Pieces_special _ 1 [x3c] []); [discriminate|exact H1|reflexivity|constructor].
Qed.

(** ** C10 *)
(** Without an empty special token, encode ends, with success or the "no path" error of one of the
    processed ordinary pieces. *)
Theorem C10_encode_ends : forall normalize vocab ps sps fuel rnd s dropout,
  keeps_utf8 normalize -> tok_fits vocab sps -> Forall (fun sp => sp <> []) sps -> Utf8 s -> length s < fuel ->
  (exists ids, tok_encode normalize fuel (tok_new (model_from vocab) ps sps) rnd s dropout = Ok ids) \/
  (exists n, tok_encode normalize fuel (tok_new (model_from vocab) ps sps) rnd s dropout = Err (NoPath n n)).
Proof.
  intros normalize vocab ps sps fuel rnd s d Hn Hok Hne Hs Hf.
  destruct (C09_pieces_exist Hok Hne Hs) as (pcs & HP).
  destruct (encode_pieces_total normalize Hn ps Hok Hs rnd d HP Hf) as [H|(p & n & _ & _ & H)]; eauto.
Qed.
Print Assumptions C10_encode_ends.
(** In general it ends exactly if [Pieces] cuts the text, ... *)
Theorem C10_encode_ends_iff : forall normalize vocab ps sps s dropout rnd,
  keeps_utf8 normalize -> tok_fits vocab sps -> Utf8 s ->
  (exists pcs, Pieces (first_occurrences sps) s pcs) /\
  (forall fuel, length s < fuel -> tok_encode normalize fuel (tok_new (model_from vocab) ps sps) rnd s dropout <> Diverge) \/
  (forall pcs, ~ Pieces (first_occurrences sps) s pcs) /\
  (forall fuel, tok_encode normalize fuel (tok_new (model_from vocab) ps sps) rnd s dropout = Diverge).
Proof. intros; eapply encode_ends_iff; eassumption. Qed.
Print Assumptions C10_encode_ends_iff.
(** ... which it does not once the empty string comes first among the special tokens a text starts with. *)
Theorem C10_empty_special_diverges : forall normalize vocab ps sps s dropout rnd k,
  keeps_utf8 normalize -> tok_fits vocab sps -> Utf8 s -> s <> [] ->
  nth_error (first_occurrences sps) k = Some [] ->
  (forall k' sp, k' < k -> nth_error (first_occurrences sps) k' = Some sp -> ~ Prefix sp s) ->
  forall fuel, tok_encode normalize fuel (tok_new (model_from vocab) ps sps) rnd s dropout = Diverge.
Proof.
  intros normalize vocab ps sps s d rnd k Hn Hok Hs Hne Hk Hfirst fuel.
  apply (encode_diverges normalize Hn ps Hok Hs). eapply no_pieces_empty; [exact Hne| |exact Hk].
  split; [|exact Hfirst]. exists []. split; [exact Hk|now exists s].
Qed.
Print Assumptions C10_empty_special_diverges.
(** "<s>" registered before "": encoding "<s>" ends, encoding "a" does not. *)
Example C10_example :
  tok_encode ex_norm 4 (tok_new (model_from ex_vocab) [] [[x3c; x73; x3e]; []]) ex_draws [x3c; x73; x3e] f0 = Ok [7%N] /\
  tok_encode ex_norm 50 (tok_new (model_from ex_vocab) [] [[x3c; x73; x3e]; []]) ex_draws [x61] f0 = Diverge.
Proof. split; vm_compute; reflexivity. Qed.

(** ** C11 *)
Theorem C11_decode_meaning : forall vocab ps sps ids incl out, tok_fits vocab sps ->
  tok_decode (tok_new (model_from vocab) ps sps) ids incl = Ok out <->
  Decodes vocab (first_occurrences sps) incl ids out.
Proof. intros vocab ps sps ids incl out (H1 & H2 & _). now apply tok_decode_ok. Qed.
Print Assumptions C11_decode_meaning.
Theorem C11_decode_error : forall vocab ps sps ids incl e, tok_fits vocab sps ->
  tok_decode (tok_new (model_from vocab) ps sps) ids incl = Err e <->
  exists id, e = TokenIdOutOfBounds id /\ first_beyond (N.of_nat (length vocab + length (first_occurrences sps))) ids id.
Proof. intros vocab ps sps ids incl e (H1 & H2 & _). now apply tok_decode_err. Qed.
Print Assumptions C11_decode_error.
Theorem C11_decode_total : forall vocab ps sps ids incl, tok_fits vocab sps ->
  (exists out, tok_decode (tok_new (model_from vocab) ps sps) ids incl = Ok out) \/
  (exists id, tok_decode (tok_new (model_from vocab) ps sps) ids incl = Err (TokenIdOutOfBounds id)).
Proof. intros vocab ps sps ids incl (H1 & H2 & _). now apply tok_decode_total. Qed.
Print Assumptions C11_decode_total.
Theorem C11_meaning_unique : forall vocab sps incl ids out out', tok_fits vocab sps ->
  Decodes vocab (first_occurrences sps) incl ids out -> Decodes vocab (first_occurrences sps) incl ids out' -> out = out'.
Proof. intros vocab sps incl ids out out' (_ & H & _) H1 H2; eapply Decodes_fun; eassumption. Qed.
(** Decoding runs separately is not the same as decoding their concatenation: a character cut in two. *)
Example C11_not_a_homomorphism :
  tok_decode (tok_new (model_from [ST [xc3] f0 false; ST [xa9] f0 false]) [] []) [0; 1]%N true = Ok [xc3; xa9] /\
  tok_decode (tok_new (model_from [ST [xc3] f0 false; ST [xa9] f0 false]) [] []) [0]%N true = Ok (encode_char 0xFFFD) /\
  tok_decode (ex_tok []) [0; 10; 3; 12; 99]%N true = Err (TokenIdOutOfBounds 12).
Proof. repeat split; vm_compute; reflexivity. Qed.

(** ** C12 *)
Theorem C12_decode_valid : forall vocab ps sps ids incl out, tok_fits vocab sps ->
  tok_decode (tok_new (model_from vocab) ps sps) ids incl = Ok out -> Utf8 out.
Proof.
  intros vocab ps sps ids incl out Hok H. apply C11_decode_meaning in H; [|exact Hok].
  destruct Hok as (_ & _ & Hv). eapply Decodes_Utf8; [|exact H]. apply Forall_forall. intros sp Hsp.
  rewrite first_occurrences_In in Hsp. rewrite Forall_forall in Hv. auto.
Qed.
Print Assumptions C12_decode_valid.
Theorem C12_exact_on_valid : forall bs out, Utf8 bs -> Lossy bs out -> out = bs.
Proof. intros; eapply Lossy_valid; eassumption. Qed.
Print Assumptions C12_exact_on_valid.
(** A truncated four-byte character is one replacement, each stray byte another one. *)
Example C12_lossy_example :
  from_utf8_lossy [xf0; x9f; x98; x61; x80; xff; xc3; xa9] =
  encode_char 0xFFFD ++ [x61] ++ encode_char 0xFFFD ++ encode_char 0xFFFD ++ [xc3; xa9].
Proof. vm_compute. reflexivity. Qed.

(** ** C13 *)
Theorem C13_id_to_token : forall vocab ps sps id v, tok_fits vocab sps ->
  tok_id_to_token (tok_new (model_from vocab) ps sps) id = Some v <->
  (exists t, token_at vocab id t /\ st_value t = v) \/
  (exists k, id = N.of_nat (length vocab + k) /\ nth_error (first_occurrences sps) k = Some v).
Proof. intros vocab ps sps id v (H1 & H2 & H3). now apply tok_id_to_token_iff. Qed.
Theorem C13_token_to_id : forall vocab ps sps id v, tok_fits vocab sps ->
  tok_token_to_id (tok_new (model_from vocab) ps sps) v = Some id <->
  (exists t, latest vocab id t /\ st_value t = v) \/
  ((forall t, In t vocab -> st_value t <> v) /\
   exists k, id = N.of_nat (length vocab + k) /\ nth_error (first_occurrences sps) k = Some v).
Proof. intros vocab ps sps id v (H1 & H2 & H3). now apply tok_token_to_id_iff. Qed.
Print Assumptions C13_token_to_id.
Theorem C13_round_trip : forall vocab ps sps id v, tok_fits vocab sps ->
  tok_token_to_id (tok_new (model_from vocab) ps sps) v = Some id ->
  tok_id_to_token (tok_new (model_from vocab) ps sps) id = Some v.
Proof. intros vocab ps sps id v (H1 & H2 & H3). now apply tok_round. Qed.
Print Assumptions C13_round_trip.
Theorem C13_inverse : forall vocab ps sps id v, tok_fits vocab sps ->
  distinct_values vocab -> (forall t, In t vocab -> ~ In (st_value t) sps) ->
  tok_token_to_id (tok_new (model_from vocab) ps sps) v = Some id <->
  tok_id_to_token (tok_new (model_from vocab) ps sps) id = Some v.
Proof.
  intros vocab ps sps id v (H1 & H2 & H3) Hd Hn. split; [now apply tok_round|now apply tok_round_back].
Qed.
Print Assumptions C13_inverse.
Theorem C13_partition : forall vocab ps sps id, tok_fits vocab sps ->
  let t := tok_new (model_from vocab) ps sps in
  (is_base t id = true <-> (id < N.of_nat (base_vocab_size t))%N) /\
  (is_special t id = true <-> (N.of_nat (base_vocab_size t) <= id < N.of_nat (tok_vocab_size t))%N) /\
  (tok_id_to_token t id = None <-> (N.of_nat (tok_vocab_size t) <= id)%N) /\
  base_vocab_size t = length vocab /\ special_vocab_size t = length (first_occurrences sps) /\
  tok_vocab_size t = base_vocab_size t + special_vocab_size t.
Proof. intros vocab ps sps id (H1 & H2 & H3). now apply partition_sizes. Qed.
Print Assumptions C13_partition.
(** The separate lookups of base and special tokens. *)
Theorem C13_base_special : forall vocab ps sps id v tk, tok_fits vocab sps ->
  let t := tok_new (model_from vocab) ps sps in
  (id_to_base_token t id = Some tk <-> token_at vocab id tk) /\
  (base_token_to_id t v = Some id <-> exists tk, latest vocab id tk /\ st_value tk = v) /\
  (id_to_special_token t id = Some v <->
     exists k, id = N.of_nat (length vocab + k) /\ nth_error (first_occurrences sps) k = Some v) /\
  (special_token_to_id t v = Some id <->
     exists k, id = N.of_nat (length vocab + k) /\ nth_error (first_occurrences sps) k = Some v).
Proof. intros vocab ps sps id v tk (H1 & H2 & H3). now apply base_special. Qed.
Print Assumptions C13_base_special.
(** Without distinctness the inverse fails: "a" is both id 0 and id 5 of the example vocabulary. *)
Example C13_not_injective :
  tok_id_to_token (ex_tok []) 0 = Some [x61] /\ tok_token_to_id (ex_tok []) [x61] = Some 5%N /\
  tok_token_to_id (ex_tok []) [x3c] = Some 11%N /\ tok_id_to_token (ex_tok []) 11 = Some [x3c] /\
  is_special (ex_tok []) 11 = true /\ is_special (ex_tok []) 12 = false /\ is_base (ex_tok []) 9 = true.
Proof. repeat split; vm_compute; reflexivity. Qed.
Example C13_example : tok_fits ex_vocab' ex_sps /\ distinct_values ex_vocab' /\ (forall t, In t ex_vocab' -> ~ In (st_value t) ex_sps).
Proof.
  split; [|split].
  - destruct ex_tok_fits as (_ & _ & H). split; [split; [reflexivity|repeat constructor]|]. split; [reflexivity|exact H].
  - repeat constructor; simpl; intuition discriminate.
  - simpl. intros t [<-|[<-|[<-|[<-|[<-|[]]]]]]; simpl; intuition discriminate.
Qed.

(** ** C14 and C15: histories *)
Theorem C15_history : forall ops vocab ps sps,
  fold_left run_op ops (tok_new (model_from vocab) ps sps) =
  tok_new (model_from (vocab ++ flat_map op_tokens ops)) ps (sps ++ flat_map op_specials ops).
Proof. exact history_new. Qed.
Print Assumptions C15_history.
(** Base ids keep their token, special ids move by the number of added base tokens. *)
Theorem C15_ids_after_additions : forall vocab ps sps toks id v,
  tok_fits vocab sps -> tok_fits (vocab ++ toks) sps ->
  let t := tok_new (model_from vocab) ps sps in
  (is_base t id = true -> id_to_base_token (add_base_tokens t toks) id = id_to_base_token t id) /\
  (id_to_special_token t id = Some v <-> id_to_special_token (add_base_tokens t toks) (id + N.of_nat (length toks)) = Some v) /\
  special_token_to_id (add_base_tokens t toks) v = option_map (fun i => (i + N.of_nat (length toks))%N) (special_token_to_id t v).
Proof. intros; now apply ids_after_base. Qed.
Print Assumptions C15_ids_after_additions.
Example C15_example :
  tok_encode ex_norm 9 (add_base_tokens (ex_tok []) [ST [x61; x3c] f0 false; ST [x0d; x0a] f0 false]) ex_draws ex_text f0
    = Ok [5; 12; 11; 1; 13]%N /\
  tok_id_to_token (add_base_tokens (ex_tok []) [ST [x61; x3c] f0 false; ST [x0d; x0a] f0 false]) 13 = Some [x3c].
Proof. split; vm_compute; reflexivity. Qed.

Theorem C14_special_ids_stable : forall vocab ps sps more id v, tok_fits vocab (sps ++ more) ->
  let t := tok_new (model_from vocab) ps sps in
  tok_id_to_token t id = Some v -> tok_id_to_token (add_special_tokens t more) id = Some v.
Proof. intros; now apply ids_after_special. Qed.
Print Assumptions C14_special_ids_stable.
(** What is registered: the first occurrences, in order; new tokens get the next ids. *)
Theorem C14_registered : forall vocab ps sps more,
  special_tokens (add_special_tokens (tok_new (model_from vocab) ps sps) more) = first_occurrences (sps ++ more) /\
  first_occurrences (sps ++ more) =
    first_occurrences sps ++ filter (fun x => if in_dec (list_eq_dec Byte.byte_eq_dec) x sps then false else true) (first_occurrences more).
Proof. intros; now apply registered. Qed.
Print Assumptions C14_registered.
Theorem C14_idempotent : forall vocab ps sps more, incl more sps ->
  add_special_tokens (tok_new (model_from vocab) ps sps) more = tok_new (model_from vocab) ps sps.
Proof. intros; now apply adds_known. Qed.
Print Assumptions C14_idempotent.
Theorem C14_registered_once : forall sps x, (In x (first_occurrences sps) <-> In x sps) /\ NoDup (first_occurrences sps).
Proof. exact (fun sps x => conj (first_occurrences_In sps x) (first_occurrences_NoDup sps)). Qed.
Example C14_example :
  special_tokens (add_special_tokens (ex_tok []) [[x3c]; [x7a]; [x7a]]) = [[x3c; x73; x3e]; [x3c]; [x7a]] /\
  tok_fits ex_vocab2 (ex_sps ++ [[x3c]; [x7a]; [x7a]]) /\
  tok_token_to_id (add_special_tokens (ex_tok []) [[x3c]; [x7a]; [x7a]]) [x7a] = Some 12%N.
Proof.
  split; [vm_compute; reflexivity|]. split; [|vm_compute; reflexivity].
  destruct ex_tok_fits as (H1 & _ & H3). split; [exact H1|]. split; [reflexivity|]. apply Forall_app. split; [exact H3|].
  assert (Utf8 [x3c]) by (apply (@ascii_text [0x3c]%N); repeat constructor).
  assert (Utf8 [x7a]) by (apply (@ascii_text [0x7a]%N); repeat constructor). repeat (constructor; auto).
Qed.

(** ** C18 *)
Theorem C18_encode_batch_ok : forall normalize fuel t rnd inputs dropout sched outs,
  Permutation sched (seq 0 (length inputs)) ->
  encode_batch normalize fuel t rnd inputs dropout sched = Ok outs <->
  Forall2 (fun i out => tok_encode normalize fuel t (rnd i) (nth i inputs []) dropout = Ok out) (seq 0 (length inputs)) outs.
Proof. intros; now apply batch_ok with (f := fun i s => tok_encode normalize fuel t (rnd i) s dropout). Qed.
Print Assumptions C18_encode_batch_ok.
Theorem C18_encode_ordinary_batch_ok : forall normalize t rnd inputs dropout sched outs,
  Permutation sched (seq 0 (length inputs)) ->
  encode_ordinary_batch normalize t rnd inputs dropout sched = Ok outs <->
  Forall2 (fun i out => encode_ordinary normalize t (rnd i) (nth i inputs []) dropout = Ok out) (seq 0 (length inputs)) outs.
Proof. intros; now apply batch_ok with (f := fun i s => encode_ordinary normalize t (rnd i) s dropout). Qed.
Theorem C18_decode_batch_ok : forall t inputs incl sched outs,
  Permutation sched (seq 0 (length inputs)) ->
  decode_batch t inputs incl sched = Ok outs <->
  Forall2 (fun i out => tok_decode t (nth i inputs []) incl = Ok out) (seq 0 (length inputs)) outs.
Proof. intros; now apply batch_ok with (f := fun i s => tok_decode t s incl). Qed.
Theorem C18_encode_batch_error : forall normalize vocab ps sps fuel rnd inputs dropout sched,
  keeps_utf8 normalize -> tok_fits vocab sps -> Forall (fun sp => sp <> []) sps ->
  Forall Utf8 inputs -> Forall (fun s => length s < fuel) inputs ->
  Permutation sched (seq 0 (length inputs)) ->
  (forall outs, encode_batch normalize fuel (tok_new (model_from vocab) ps sps) rnd inputs dropout sched <> Ok outs) ->
  exists i s e, nth_error inputs i = Some s /\
    tok_encode normalize fuel (tok_new (model_from vocab) ps sps) (rnd i) s dropout = Err e /\
    encode_batch normalize fuel (tok_new (model_from vocab) ps sps) rnd inputs dropout sched = Err e.
Proof.
  intros normalize vocab ps sps fuel rnd inputs d sched Hn Hok Hne Hu Hf Hsched Hno.
  apply batch_err with (f := fun i s => tok_encode normalize fuel (tok_new (model_from vocab) ps sps) (rnd i) s d); auto.
  intros i s Hi. apply nth_error_In in Hi. rewrite Forall_forall in Hu, Hf.
  destruct (C10_encode_ends ps (rnd i) d Hn Hok Hne (Hu _ Hi) (Hf _ Hi)) as [H|(n & H)]; eauto.
Qed.
Print Assumptions C18_encode_batch_error.
Theorem C18_decode_batch_error : forall vocab ps sps inputs incl sched,
  tok_fits vocab sps -> Permutation sched (seq 0 (length inputs)) ->
  (forall outs, decode_batch (tok_new (model_from vocab) ps sps) inputs incl sched <> Ok outs) ->
  exists i s e, nth_error inputs i = Some s /\ tok_decode (tok_new (model_from vocab) ps sps) s incl = Err e /\
    decode_batch (tok_new (model_from vocab) ps sps) inputs incl sched = Err e.
Proof.
  intros vocab ps sps inputs incl sched Hok Hsched Hno.
  apply batch_err with (f := fun i s => tok_decode (tok_new (model_from vocab) ps sps) s incl); auto.
  intros i s _. destruct (C11_decode_total ps s incl Hok) as [H|(id & H)]; eauto.
Qed.
Print Assumptions C18_decode_batch_error.
Theorem C18_encode_ordinary_batch_error : forall normalize vocab ps sps rnd inputs dropout sched,
  tok_fits vocab sps -> Permutation sched (seq 0 (length inputs)) ->
  (forall outs, encode_ordinary_batch normalize (tok_new (model_from vocab) ps sps) rnd inputs dropout sched <> Ok outs) ->
  exists i s e, nth_error inputs i = Some s /\
    encode_ordinary normalize (tok_new (model_from vocab) ps sps) (rnd i) s dropout = Err e /\
    encode_ordinary_batch normalize (tok_new (model_from vocab) ps sps) rnd inputs dropout sched = Err e.
Proof.
  intros normalize vocab ps sps rnd inputs d sched Hok Hsched Hno.
  apply batch_err with (f := fun i s => encode_ordinary normalize (tok_new (model_from vocab) ps sps) (rnd i) s d); auto.
  intros i s _. unfold encode_ordinary. rewrite tok_new_model.
  destruct (encode_total (proj1 Hok) (rnd i) (preprocess_all normalize (tk_processors (tok_new (model_from vocab) ps sps)) s) d) as [H|H]; eauto.
Qed.
Print Assumptions C18_encode_ordinary_batch_error.
(** Three ids lists, the last two of which fail: the schedule decides which error is reported. *)
Example C18_example :
  decode_batch (ex_tok []) [[0]; [50]; [60]]%N true [2; 1; 0] = Err (TokenIdOutOfBounds 60) /\
  decode_batch (ex_tok []) [[0]; [50]; [60]]%N true [0; 1; 2] = Err (TokenIdOutOfBounds 50) /\
  decode_batch (ex_tok []) [[0]; [1; 11]]%N true [1; 0] = Ok [[x61]; [x62; x3c]].
Proof. repeat split; vm_compute; reflexivity. Qed.

(** ** C24 *)
Theorem C24_crlf : forall normalize s, CrDropped s (preprocess normalize Crlf s).
Proof. exact (fun _ s => crlf_spec s). Qed.
Print Assumptions C24_crlf.
Theorem C24_crlf_unique : forall s out out', CrDropped s out -> CrDropped s out' -> out = out'.
Proof. intros; eapply CrDropped_fun; eassumption. Qed.
Theorem C24_postprocess : forall ps s, postprocess_all ps s = s.
Proof. exact postprocess_all_id. Qed.
(** Applying it twice changes nothing more exactly for texts without CR CR LF. *)
Theorem C24_idempotent_iff : forall normalize s,
  preprocess normalize Crlf (preprocess normalize Crlf s) = preprocess normalize Crlf s <->
  (forall a r, s <> a ++ x0d :: x0d :: x0a :: r).
Proof. exact (fun _ s => crlf_idem_iff s). Qed.
Print Assumptions C24_idempotent_iff.
Example C24_example :
  preprocess ex_norm Crlf [x61; x0d; x0a; x0d; x0d; x0a; x0d; x62] = [x61; x0a; x0d; x0a; x0d; x62] /\
  preprocess ex_norm Crlf [x61; x0a; x0d; x0a; x0d; x62] = [x61; x0a; x0a; x0d; x62].
Proof. split; vm_compute; reflexivity. Qed.
