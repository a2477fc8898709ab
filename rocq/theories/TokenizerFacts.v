(** Lookups of a tokenizer; consequences used by the property files. *)
From Verif Require Import Base BaseProofs F64 Utf8 Trie TrieProofs Model SpecModel SpecUtf8 ModelProofs EncodeProofs Utf8Proofs
  Processor ProcessorProofs Tokenizer SpecTokenizer SplitProofs TokenizerProofs ModelFacts.
Set Implicit Arguments.

Section Look.
  Variable vocab : list scored_token.
  Variable ps : list processor.
  Variable sps : list bytes.
  Let t := tok_new (model_from vocab) ps sps.
  Let specials := first_occurrences sps.
  Hypothesis Hfits : fits vocab.
  Hypothesis Hroom : (N.of_nat (length vocab + length specials) < 2 ^ 32)%N.

  Let Hsize : as_u32 (vocab_size (tk_model t)) = N.of_nat (length vocab).
  Proof. unfold t. rewrite tok_new_model. unfold vocab_size. rewrite model_from_vocab. apply as_u32_small, Hfits. Qed.
  Let Hspec : tk_specials t = specials.
  Proof. apply tok_new_specials. Qed.

  Lemma is_base_iff id : is_base t id = true <-> (id < N.of_nat (length vocab))%N.
  Proof. unfold is_base. rewrite Hsize. apply N.ltb_lt. Qed.

  Lemma id_to_special_iff id v : id_to_special_token t id = Some v <->
    exists k, id = N.of_nat (length vocab + k) /\ nth_error specials k = Some v.
  Proof.
    unfold id_to_special_token. rewrite Hsize, Hspec.
    destruct (N.ltb_spec id (N.of_nat (length vocab))) as [H|H].
    - split; [discriminate|]. intros (k & -> & _). lia.
    - split.
      + intros E. exists (N.to_nat (id - N.of_nat (length vocab))). split; [lia|exact E].
      + intros (k & -> & E). replace (N.to_nat _) with k by lia. exact E.
  Qed.

  Lemma is_special_iff id : is_special t id = true <->
    (N.of_nat (length vocab) <= id < N.of_nat (length vocab + length specials))%N.
  Proof.
    unfold is_special. rewrite Hsize, Hspec.
    destruct (N.ltb_spec id (N.of_nat (length vocab))) as [H|H]; [split; [discriminate|lia]|].
    destruct (nth_error specials (N.to_nat (id - N.of_nat (length vocab)))) eqn:E.
    - assert (N.to_nat (id - N.of_nat (length vocab)) < length specials) by (apply nth_error_Some; congruence).
      split; [lia|reflexivity].
    - apply nth_error_None in E. split; [discriminate|lia].
  Qed.

  Lemma id_to_base_iff id tk : id_to_base_token t id = Some tk <-> token_at vocab id tk.
  Proof.
    unfold id_to_base_token, id_to_token. unfold t. rewrite tok_new_model. unfold vocab_size. rewrite model_from_vocab.
    rewrite as_u32_small by apply Hfits. unfold token_at.
    destruct (N.leb_spec (N.of_nat (length vocab)) id) as [H|H]; [|reflexivity].
    split; [discriminate|]. intros E. assert (N.to_nat id < length vocab) by (apply nth_error_Some; congruence). lia.
  Qed.

  Lemma tok_id_to_token_iff id v : tok_id_to_token t id = Some v <->
    (exists tk, token_at vocab id tk /\ st_value tk = v) \/
    (exists k, id = N.of_nat (length vocab + k) /\ nth_error specials k = Some v).
  Proof.
    unfold tok_id_to_token. destruct (id_to_special_token t id) as [s|] eqn:E.
    - apply id_to_special_iff in E as (k & -> & E). split.
      + intros [= <-]. right. eauto.
      + intros [(tk & H & _)|(k' & H & H')].
        * exfalso. unfold token_at in H. assert (N.to_nat (N.of_nat (length vocab + k)) < length vocab) by (apply nth_error_Some; congruence). lia.
        * replace k' with k in * by lia. congruence.
    - destruct (id_to_base_token t id) as [tk|] eqn:E'; simpl.
      + apply id_to_base_iff in E'. split.
        * intros [= <-]. left. eauto.
        * intros [(tk' & H & <-)|H]; [unfold token_at in *; congruence|]. apply id_to_special_iff in H. congruence.
      + split; [discriminate|]. intros [(tk & H & _)|H]; [apply id_to_base_iff in H|apply id_to_special_iff in H]; congruence.
  Qed.

  Lemma tok_id_to_token_none id : tok_id_to_token t id = None <-> (N.of_nat (length vocab + length specials) <= id)%N.
  Proof.
    destruct (tok_id_to_token t id) as [v|] eqn:E; split; try discriminate; try reflexivity.
    - intros H. apply tok_id_to_token_iff in E as [(tk & E & _)|(k & -> & E)].
      + unfold token_at in E. assert (N.to_nat id < length vocab) by (apply nth_error_Some; congruence). lia.
      + assert (k < length specials) by (apply nth_error_Some; congruence). lia.
    - intros _. destruct (N.le_gt_cases (N.of_nat (length vocab + length specials)) id) as [H|H]; [exact H|exfalso].
      assert (exists v, tok_id_to_token t id = Some v) as (v & Hv); [|congruence].
      destruct (N.lt_ge_cases id (N.of_nat (length vocab))) as [Hb|Hb].
      + destruct (nth_error vocab (N.to_nat id)) as [tk|] eqn:En; [|apply nth_error_None in En; lia].
        exists (st_value tk). apply tok_id_to_token_iff. left. now exists tk.
      + destruct (nth_error specials (N.to_nat id - length vocab)) as [v|] eqn:En; [|apply nth_error_None in En; lia].
        exists v. apply tok_id_to_token_iff. right. exists (N.to_nat id - length vocab). split; [lia|exact En].
  Qed.

  Lemma special_to_id_iff v id : special_token_to_id t v = Some id <->
    exists k, id = N.of_nat (length vocab + k) /\ nth_error specials k = Some v.
  Proof.
    unfold special_token_to_id. rewrite Hsize. destruct (specials_ok_new (model_from vocab) ps sps) as [_ Hok].
    fold t in Hok. rewrite Hspec in Hok.
    assert (Hadd : forall i, i < length specials -> u32_add (as_u32 i) (N.of_nat (length vocab)) = N.of_nat (length vocab + i)).
    { intros i Hi. rewrite as_u32_small by lia. unfold u32_add. rewrite N.mod_small; lia. }
    split.
    - destruct (hm_get bytes_eqb v (tk_specials_map t)) as [x|] eqn:E; [|discriminate]. simpl. intros [= <-].
      apply Hok in E as (i & Hi & ->). exists i. split; [|exact Hi].
      apply Hadd. apply nth_error_Some. congruence.
    - intros (k & -> & Hk). rewrite (proj2 (Hok v (as_u32 k))) by eauto. simpl. f_equal. apply Hadd. apply nth_error_Some. congruence.
  Qed.

  Hypothesis Hvalid : Forall Utf8 sps.
  Lemma tok_token_to_id_iff v id : tok_token_to_id t v = Some id <->
    (exists tk, latest vocab id tk /\ st_value tk = v) \/
    ((forall tk, In tk vocab -> st_value tk <> v) /\
     exists k, id = N.of_nat (length vocab + k) /\ nth_error specials k = Some v).
  Proof.
    unfold tok_token_to_id, base_token_to_id. unfold t at 1. rewrite tok_new_model.
    destruct (token_to_id (model_from vocab) v) as [i|] eqn:E.
    - apply token_to_id_iff in E as (tk & Hl & Hv); [|exact Hfits]. split.
      + intros [= <-]. left. eauto.
      + intros [(tk' & Hl' & Hv')|(Hno & _)].
        * f_equal. refine (proj1 (latest_unique Hl Hl' _)). congruence.
        * exfalso. apply (Hno tk); [|exact Hv]. destruct Hl as [Hl _]. now apply token_at_In in Hl.
    - assert (Hno : forall tk, In tk vocab -> st_value tk <> v).
      { intros tk Hin Hv. destruct (latest_exists _ _ Hin) as (i & tk' & Hl & Hv').
        assert (token_to_id (model_from vocab) v = Some i); [|congruence]. apply token_to_id_iff; [exact Hfits|]. exists tk'. split; [exact Hl|congruence]. }
      assert (Hsp : (if utf8_ok v then special_token_to_id t v else None) = Some id <->
        exists k, id = N.of_nat (length vocab + k) /\ nth_error specials k = Some v).
      { rewrite <- special_to_id_iff. destruct (utf8_ok v) eqn:Eu; [reflexivity|]. split; [discriminate|]. intros H.
        apply special_to_id_iff in H as (k & _ & Hk). apply nth_error_In in Hk. unfold specials in Hk. rewrite first_occurrences_In in Hk.
        rewrite Forall_forall in Hvalid. apply Hvalid in Hk. apply utf8_ok_spec in Hk. congruence. }
      rewrite Hsp. split; [tauto|]. intros [(tk & [Hl _] & Hv)|[_ H]]; [|exact H].
      exfalso. exact (Hno tk (token_at_In Hl) Hv).
  Qed.

  Lemma tok_round v id : tok_token_to_id t v = Some id -> tok_id_to_token t id = Some v.
  Proof.
    intros H. apply tok_token_to_id_iff in H as [(tk & [H _] & Hv)|[_ H]]; apply tok_id_to_token_iff; eauto.
  Qed.

  Lemma tok_round_back v id : NoDup (map st_value vocab) -> (forall tk, In tk vocab -> ~ In (st_value tk) sps) ->
    tok_id_to_token t id = Some v -> tok_token_to_id t v = Some id.
  Proof.
    intros Hd Hn H. apply tok_token_to_id_iff. apply tok_id_to_token_iff in H as [(tk & H & Hv)|(k & -> & H)].
    - left. exists tk. split; [|exact Hv]. now apply distinct_latest.
    - right. split; [|eauto]. intros tk Hin He. apply (Hn tk Hin). rewrite He.
      rewrite <- (first_occurrences_In sps). apply nth_error_In in H. exact H.
  Qed.
End Look.

(** Histories of a tokenizer. *)
Section Run.
  Variable normalize : unicode_form -> bytes -> bytes.
  Hypothesis normalize_valid : forall f s, Utf8 s -> Utf8 (normalize f s).
  Variable vocab : list scored_token.
  Variable ps : list processor.
  Variable sps : list bytes.
  Let t := tok_new (model_from vocab) ps sps.
  Let specials := first_occurrences sps.
  Hypothesis Hok : tok_fits vocab sps.
  Let Hfits : fits vocab := proj1 Hok.
  Let Hroom : (N.of_nat (length vocab + length (first_occurrences sps)) < 2 ^ 32)%N := proj1 (proj2 Hok).
  Let Hvalid : Forall Utf8 sps := proj2 (proj2 Hok).

  Lemma pieces_case s pcs : Utf8 s -> Pieces specials s pcs -> 
    Forall (fun pc => match pc with Plain p => Utf8 p | Special k => k < length specials end) pcs /\
    forall fuel rnd d, length s < fuel ->
      tok_encode normalize fuel t rnd s d = run_pieces normalize vocab ps sps rnd d 0 pcs.
  Proof.
    intros Hs HP. destruct (in_dec (list_eq_dec Byte.byte_eq_dec) [] sps) as [Hin|Hin].
    - assert (Hin' : In [] specials) by (unfold specials; now rewrite first_occurrences_In).
      assert (Hnil : Utf8 []) by (exists []; split; [constructor|reflexivity]).
      destruct (@encode_loop_empty normalize normalize_valid vocab ps sps Hroom Hvalid (length s) Hin s [] (le_n _) Hnil Hs)
        as [(pcs' & HP' & Hl & Hrun)|[Hno _]]; [|exfalso; exact (Hno _ HP)].
      assert (pcs' = pcs) by exact (Pieces_fun HP' HP). subst pcs'. split.
      + assert (Hi := Pieces_index HP).
        assert (Hp : forall s pcs, Pieces specials s pcs -> Forall (fun pc => match pc with Plain _ => False | Special _ => True end) pcs).
        { induction 1 as [|k sp r pcs0 Hnn Hk Hsk HP0 IH|p r pcs0 Hp Hno Hend HP0 IH]; constructor; auto.
          apply (Hno [] p eq_refl Hp [] Hin'). now exists (p ++ r). }
        clear Hrun. specialize (Hp _ _ HP). rewrite Forall_forall in *. intros pc Hpc. specialize (Hi pc Hpc). specialize (Hp pc Hpc).
        destruct pc; [exact Hi|contradiction].
      + intros fuel rnd d Hf. unfold tok_encode. refine (eq_trans (Hrun fuel rnd d 0 [] _) _); [lia|].
        now destruct (run_pieces normalize vocab ps sps rnd d 0 pcs).
    - assert (Hne : Forall (fun sp => sp <> []) sps).
      { apply Forall_forall. intros sp H ->. contradiction. }
      destruct (@tok_encode_pieces normalize normalize_valid vocab ps sps Hroom Hvalid Hne s Hs) as (pcs' & HP' & Hu & _ & Hrun).
      assert (pcs' = pcs) by exact (Pieces_fun HP' HP). subst pcs'. split; [|exact Hrun].
      assert (Hi := Pieces_index HP). rewrite Forall_forall in *. intros pc Hpc. specialize (Hi pc Hpc). specialize (Hu pc Hpc).
      destruct pc; assumption.
  Qed.
End Run.

Section Run2.
  Variable normalize : unicode_form -> bytes -> bytes.
  Hypothesis normalize_valid : forall f s, Utf8 s -> Utf8 (normalize f s).
  Variable vocab : list scored_token.
  Variable ps : list processor.
  Variable sps : list bytes.
  Let t := tok_new (model_from vocab) ps sps.
  Let specials := first_occurrences sps.
  Hypothesis Hok : tok_fits vocab sps.
  Let Hfits : fits vocab := proj1 Hok.
  Let Hroom : (N.of_nat (length vocab + length (first_occurrences sps)) < 2 ^ 32)%N := proj1 (proj2 Hok).
  Let Hvalid : Forall Utf8 sps := proj2 (proj2 Hok).
  Variable s : bytes.
  Hypothesis Hs : Utf8 s.

  Lemma encode_pieces_ok pcs fuel rnd d ids : Pieces specials s pcs -> length s < fuel ->
    tok_encode normalize fuel t rnd s d = Ok ids <->
    exists parts, ids = concat parts /\ length parts = length pcs /\
      forall i pc part, nth_error pcs i = Some pc -> nth_error parts i = Some part ->
        match pc with
        | Special k => part = [N.of_nat (length vocab + k)]
        | Plain p => encode_ordinary normalize t (rnd i) p d = Ok part
        end.
  Proof.
    intros HP Hf. destruct (pieces_case normalize normalize_valid ps Hok Hs HP) as [_ Hrun].
    unfold t. rewrite (Hrun fuel rnd d Hf), run_pieces_ok by exact Hroom.
    split; intros (parts & H1 & H2 & H3); exists parts; (split; [exact H1|split; [exact H2|]]);
      intros i pc part Hpc Hpart; specialize (H3 i pc part Hpc Hpart); destruct pc as [k|p]; simpl in *; congruence.
  Qed.

  Lemma encode_pieces_err pcs fuel rnd d e : Pieces specials s pcs -> length s < fuel ->
    tok_encode normalize fuel t rnd s d = Err e <->
    exists i p, nth_error pcs i = Some (Plain p) /\ encode_ordinary normalize t (rnd i) p d = Err e /\
      forall i' p', i' < i -> nth_error pcs i' = Some (Plain p') -> exists ids, encode_ordinary normalize t (rnd i') p' d = Ok ids.
  Proof.
    intros HP Hf. destruct (pieces_case normalize normalize_valid ps Hok Hs HP) as [_ Hrun].
    unfold t. rewrite (Hrun fuel rnd d Hf), run_pieces_err by assumption. split.
    - intros (i & pc & H1 & H2 & H3). destruct pc as [k|p]; simpl in H2; [discriminate|]. exists i, p.
      split; [exact H1|]. split; [exact H2|]. intros i' p' Hi Hp. exact (H3 i' _ Hi Hp).
    - intros (i & p & H1 & H2 & H3). exists i, (Plain p). split; [exact H1|]. split; [exact H2|].
      intros i' [k|p'] Hi Hp; simpl; [eauto|]. exact (H3 i' _ Hi Hp).
  Qed.

  Lemma encode_pieces_total pcs fuel rnd d : Pieces specials s pcs -> length s < fuel ->
    (exists ids, tok_encode normalize fuel t rnd s d = Ok ids) \/
    (exists p n, In (Plain p) pcs /\ n = length (preprocess_all normalize ps p) /\ tok_encode normalize fuel t rnd s d = Err (NoPath n n)).
  Proof.
    intros HP Hf. destruct (pieces_case normalize normalize_valid ps Hok Hs HP) as [_ Hrun].
    destruct (run_pieces_total normalize ps sps Hfits rnd d pcs 0) as [(ids & H)|(n & H)]; rewrite <- (Hrun fuel rnd d Hf) in H.
    - left. now exists ids.
    - right. assert (H' := H). apply encode_pieces_err with (pcs := pcs) in H' as (i & p & H1 & H2 & _); auto.
      exists p, n. split; [eapply nth_error_In; eauto|]. split; [|exact H].
      unfold encode_ordinary, t in H2. rewrite tok_new_model, tok_new_processors in H2.
      destruct (encode_total Hfits (rnd i) (preprocess_all normalize ps p) d) as [(ids & H')|H']; rewrite H' in H2; congruence.
  Qed.

  Lemma pieces_exist : Forall (fun sp => sp <> []) sps -> exists pcs, Pieces specials s pcs.
  Proof.
    intros Hne. destruct (@tok_encode_pieces normalize normalize_valid vocab ps sps Hroom Hvalid Hne s Hs) as (pcs & HP & _). eauto.
  Qed.

  Lemma encode_diverges : (forall pcs, ~ Pieces specials s pcs) -> forall fuel rnd d, tok_encode normalize fuel t rnd s d = Diverge.
  Proof.
    intros Hno. destruct (in_dec (list_eq_dec Byte.byte_eq_dec) [] sps) as [Hin|Hin].
    - assert (Hnil : Utf8 []) by (exists []; split; [constructor|reflexivity]).
      destruct (@encode_loop_empty normalize normalize_valid vocab ps sps Hroom Hvalid (length s) Hin s [] (le_n _) Hnil Hs)
        as [(pcs' & HP' & Hl & Hrun)|[_ Hrun]]; [exfalso; exact (Hno _ HP')|].
      intros fuel rnd d. exact (Hrun fuel rnd d 0 []).
    - exfalso. destruct pieces_exist as (pcs & HP); [|exact (Hno _ HP)]. apply Forall_forall. intros sp H ->. contradiction.
  Qed.

  Lemma round_pieces pcs fuel rnd d ids incl : Pieces specials s pcs -> length s < fuel ->
    tok_encode normalize fuel t rnd s d = Ok ids ->
    tok_decode t ids incl =
    Ok (concat (map (fun pc => match pc with
                               | Special k => if incl then nth k specials [] else []
                               | Plain p => preprocess_all normalize ps p end) pcs)).
  Proof.
    intros HP Hf H. destruct (pieces_case normalize normalize_valid ps Hok Hs HP) as [Hall Hrun].
    unfold t in H. rewrite (Hrun fuel rnd d Hf) in H.
    apply (decode_pieces normalize normalize_valid ps sps Hfits incl rnd d 0 Hall) in H.
    apply (tok_decode_ok ps sps Hfits Hroom) in H. exact H.
  Qed.
End Run2.

Lemma preprocess_all_nil normalize s : preprocess_all normalize [] s = s.
Proof. reflexivity. Qed.

Lemma round_identity normalize vocab sps s fuel rnd d ids :
  tok_fits vocab sps -> Utf8 s -> tok_encode normalize fuel (tok_new (model_from vocab) [] sps) rnd s d = Ok ids ->
  tok_decode (tok_new (model_from vocab) [] sps) ids true = Ok s.
Proof.
  intros Hok Hs H.
  (* the normalisation functions are never called *)
  assert (Hsame : forall fuel t rnd inp c j ids0, tk_processors t = [] ->
    tok_encode_loop normalize fuel t rnd d inp c j ids0 = tok_encode_loop (fun _ x => x) fuel t rnd d inp c j ids0).
  { clear. induction fuel as [|fuel IH]; intros t rnd inp c j ids0 Hp; [reflexivity|]. cbn [tok_encode_loop].
    destruct (split_next (tk_specials t) inp c) as [[[[sub []] c']|]| | |]; cbn [bind]; auto.
    - destruct (hm_get _ _ _); auto.
    - rewrite Hp. cbn [preprocess_all fold_left]. destruct (encode _ _ _ _); cbn [bind]; auto. }
  unfold tok_encode in H. rewrite Hsame in H by apply tok_new_processors.
  change (tok_encode (fun _ x => x) fuel (tok_new (model_from vocab) [] sps) rnd s d = Ok ids) in H.
  set (nrm := fun (_ : unicode_form) (x : bytes) => x) in *.
  assert (Hnv : forall f x, Utf8 x -> Utf8 (nrm f x)) by auto.
  assert (Hdec : (exists pcs, Pieces (first_occurrences sps) s pcs) \/ ~ exists pcs, Pieces (first_occurrences sps) s pcs).
  { destruct (in_dec (list_eq_dec Byte.byte_eq_dec) [] sps) as [Hin|Hin].
    - assert (Hnil : Utf8 []) by (exists []; split; [constructor|reflexivity]). destruct Hok as (H1 & H2 & H3).
      destruct (@encode_loop_empty nrm Hnv vocab [] sps H2 H3 (length s) Hin s [] (le_n _) Hnil Hs)
        as [(pcs' & HP' & _)|[Hno _]]; [left; eauto|right]. intros (pcs & HP). exact (Hno _ HP).
    - left. apply (pieces_exist nrm Hnv [] Hok Hs). apply Forall_forall. intros sp Hi ->. contradiction. }
  destruct Hdec as [(pcs & HP)|Hno].
  - assert (Hfuel : tok_encode nrm (fuel + S (length s)) (tok_new (model_from vocab) [] sps) rnd s d = Ok ids).
    { clear -H. unfold tok_encode in *. revert H. generalize 0 at 1 3. generalize 0. generalize (@nil N).
      induction fuel as [|fuel IH]; intros ids0 j c H; [discriminate|]. cbn [Nat.add]. cbn [tok_encode_loop] in *.
      destruct (split_next _ s c) as [[[[sub []] c']|]| | |]; cbn [bind] in *; auto.
      - destruct (hm_get _ _ _); auto.
      - destruct (encode _ _ _ _); cbn [bind] in *; auto. }
    rewrite (@round_pieces nrm Hnv vocab [] sps Hok s Hs pcs (fuel + S (length s)) rnd d ids true HP ltac:(lia) Hfuel). f_equal.
    rewrite <- (Pieces_text HP). reflexivity.
  - rewrite (encode_diverges nrm Hnv [] Hok Hs) in H; [discriminate|]. intros pcs HP. eauto.
Qed.

Lemma no_pieces_empty specials s k : s <> [] -> special_at specials s k -> nth_error specials k = Some [] -> forall pcs, ~ Pieces specials s pcs.
Proof.
  intros Hs Hk Hsk. enough (HH : forall s0 pcs, Pieces specials s0 pcs -> s0 = s -> False) by (intros pcs HP; exact (HH _ _ HP eq_refl)).
  induction 1 as [|k' sp' r ps' Hnn Hk' Hsk' HP IHP|p r ps' Hp Hno Hend HP IHP]; intros Es.
  - congruence.
  - assert (k' = k) by (rewrite Es in Hk'; exact (special_at_fun Hk' Hk)). subst k'.
    assert (sp' = []) by congruence. subst sp'. simpl in Es. now apply IHP.
  - apply (special_at_not_none Hk). rewrite <- Es. apply (Hno []); [reflexivity|exact Hp].
Qed.

Lemma encode_ends_iff normalize vocab ps sps s d rnd :
  (forall f s, Utf8 s -> Utf8 (normalize f s)) -> tok_fits vocab sps -> Utf8 s ->
  (exists pcs, Pieces (first_occurrences sps) s pcs) /\
  (forall fuel, length s < fuel -> tok_encode normalize fuel (tok_new (model_from vocab) ps sps) rnd s d <> Diverge) \/
  (forall pcs, ~ Pieces (first_occurrences sps) s pcs) /\
  (forall fuel, tok_encode normalize fuel (tok_new (model_from vocab) ps sps) rnd s d = Diverge).
Proof.
  intros Hnv Hok Hs.
  assert (Hdec : (exists pcs, Pieces (first_occurrences sps) s pcs) \/ forall pcs, ~ Pieces (first_occurrences sps) s pcs).
  { destruct (in_dec (list_eq_dec Byte.byte_eq_dec) [] sps) as [Hin|Hin].
    - assert (Hnil : Utf8 []) by (exists []; split; [constructor|reflexivity]). destruct Hok as (H1 & H2 & H3).
      destruct (@encode_loop_empty normalize Hnv vocab ps sps H2 H3 (length s) Hin s [] (le_n _) Hnil Hs)
        as [(pcs' & HP' & _)|[Hno _]]; [left; eauto|right; exact Hno].
    - left. apply (pieces_exist normalize Hnv ps Hok Hs). apply Forall_forall. intros sp Hi ->. contradiction. }
  destruct Hdec as [(pcs & HP)|Hno]; [left|right].
  - split; [now exists pcs|]. intros fuel Hf H.
    destruct (encode_pieces_total normalize Hnv ps Hok Hs rnd d HP Hf) as [(ids & H')|(p & n & _ & _ & H')]; congruence.
  - split; [exact Hno|]. intros fuel. now apply encode_diverges.
Qed.

Lemma Lossy_valid bs out : Utf8 bs -> Lossy bs out -> out = bs.
Proof.
  intros Hv HL. assert (H := from_utf8_lossy_spec bs). rewrite (Lossy_fun HL H). now apply lossy_valid.
Qed.

Lemma Lossy_Utf8 bs out : Lossy bs out -> Utf8 out.
Proof. intros HL. rewrite (Lossy_fun HL (from_utf8_lossy_spec bs)). apply lossy_Utf8. Qed.

Lemma Decodes_Utf8 vocab specials incl ids out : Forall Utf8 specials -> Decodes vocab specials incl ids out -> Utf8 out.
Proof.
  intros Hs. induction 1 as [run bs out HS HL|run bs out k sp ids out' HS HL Hk HD IH].
  - eapply Lossy_Utf8; eauto.
  - apply Utf8_app; [eapply Lossy_Utf8; eauto|]. apply Utf8_app; [|exact IH].
    destruct incl; [|exists []; split; [constructor|reflexivity]]. rewrite Forall_forall in Hs. apply Hs. eapply nth_error_In; eauto.
Qed.

Lemma partition_sizes vocab ps sps id : fits vocab -> (N.of_nat (length vocab + length (first_occurrences sps)) < 2 ^ 32)%N ->
  let t := tok_new (model_from vocab) ps sps in
  (is_base t id = true <-> (id < N.of_nat (base_vocab_size t))%N) /\
  (is_special t id = true <-> (N.of_nat (base_vocab_size t) <= id < N.of_nat (tok_vocab_size t))%N) /\
  (tok_id_to_token t id = None <-> (N.of_nat (tok_vocab_size t) <= id)%N) /\
  base_vocab_size t = length vocab /\ special_vocab_size t = length (first_occurrences sps) /\
  tok_vocab_size t = base_vocab_size t + special_vocab_size t.
Proof.
  intros Hf Hr t. unfold base_vocab_size, tok_vocab_size, special_vocab_size.
  assert (Hb : vocab_size (tk_model t) = length vocab).
  { unfold t. rewrite tok_new_model. unfold vocab_size. now rewrite model_from_vocab. }
  assert (Hs : tk_specials t = first_occurrences sps) by apply tok_new_specials.
  rewrite Hb, Hs. split; [now apply is_base_iff|]. split; [now apply is_special_iff|]. split; [now apply tok_id_to_token_none|]. auto.
Qed.

Lemma base_special vocab ps sps id v tk : fits vocab -> (N.of_nat (length vocab + length (first_occurrences sps)) < 2 ^ 32)%N ->
  let t := tok_new (model_from vocab) ps sps in
  (id_to_base_token t id = Some tk <-> token_at vocab id tk) /\
  (base_token_to_id t v = Some id <-> exists tk, latest vocab id tk /\ st_value tk = v) /\
  (id_to_special_token t id = Some v <->
     exists k, id = N.of_nat (length vocab + k) /\ nth_error (first_occurrences sps) k = Some v) /\
  (special_token_to_id t v = Some id <->
     exists k, id = N.of_nat (length vocab + k) /\ nth_error (first_occurrences sps) k = Some v).
Proof.
  intros Hf Hr t. split; [now apply id_to_base_iff|]. split.
  - unfold base_token_to_id, t. rewrite tok_new_model. now apply token_to_id_iff.
  - split; [now apply id_to_special_iff|now apply special_to_id_iff].
Qed.

Lemma add_base_new vocab ps sps toks : add_base_tokens (tok_new (model_from vocab) ps sps) toks = tok_new (model_from (vocab ++ toks)) ps sps.
Proof.
  assert (H := history_new [AddBase toks] vocab ps sps). simpl in H. now rewrite !app_nil_r in H.
Qed.
Lemma add_special_new vocab ps sps more : add_special_tokens (tok_new (model_from vocab) ps sps) more = tok_new (model_from vocab) ps (sps ++ more).
Proof.
  assert (H := history_new [AddSpecial more] vocab ps sps). simpl in H. now rewrite !app_nil_r in H.
Qed.

Lemma option_ext {A} (a b : option A) : (forall x, a = Some x <-> b = Some x) -> a = b.
Proof. destruct a as [x|]; intros H; [symmetry; now apply H|]. destruct b as [y|]; [|reflexivity]. now apply H. Qed.

Lemma ids_after_base vocab ps sps toks id v : tok_fits vocab sps -> tok_fits (vocab ++ toks) sps ->
  let t := tok_new (model_from vocab) ps sps in
  (is_base t id = true -> id_to_base_token (add_base_tokens t toks) id = id_to_base_token t id) /\
  (id_to_special_token t id = Some v <-> id_to_special_token (add_base_tokens t toks) (id + N.of_nat (length toks)) = Some v) /\
  special_token_to_id (add_base_tokens t toks) v = option_map (fun i => (i + N.of_nat (length toks))%N) (special_token_to_id t v).
Proof.
  intros (H1 & H2 & _) (H1' & H2' & _) t. unfold t. rewrite add_base_new. split; [|split].
  - intros Hb. apply is_base_iff in Hb; [|exact H1]. apply option_ext. intros tk. rewrite !id_to_base_iff by assumption.
    unfold token_at. rewrite nth_error_app1 by lia. reflexivity.
  - rewrite !id_to_special_iff by assumption. rewrite app_length. split; intros (k & Hk & Hn); exists k; (split; [lia|exact Hn]).
  - apply option_ext. intros x. rewrite special_to_id_iff by assumption. rewrite app_length. split.
    + intros (k & -> & Hk). rewrite (proj2 (special_to_id_iff ps sps H1 H2 v (N.of_nat (length vocab + k)))) by eauto.
      simpl. f_equal. lia.
    + destruct (special_token_to_id (tok_new (model_from vocab) ps sps) v) as [i|] eqn:E; [|discriminate]. simpl. intros [= <-].
      apply special_to_id_iff in E as (k & -> & Hk); [|assumption|assumption]. exists k. split; [lia|exact Hk].
Qed.

Lemma registered vocab ps sps more :
  special_tokens (add_special_tokens (tok_new (model_from vocab) ps sps) more) = first_occurrences (sps ++ more) /\
  first_occurrences (sps ++ more) =
    first_occurrences sps ++ filter (fun x => if in_dec (list_eq_dec Byte.byte_eq_dec) x sps then false else true) (first_occurrences more).
Proof.
  split; [rewrite add_special_new; apply tok_new_specials|].
  induction more as [|x more IH] using rev_ind; [now rewrite !app_nil_r|].
  rewrite app_assoc, !first_occurrences_snoc, IH.
  destruct (in_dec (list_eq_dec Byte.byte_eq_dec) x (sps ++ more)) as [H|H], (in_dec (list_eq_dec Byte.byte_eq_dec) x more) as [H'|H'];
    try reflexivity.
  - apply in_app_or in H as [H|H]; [|contradiction]. rewrite filter_app. simpl.
    destruct (in_dec (list_eq_dec Byte.byte_eq_dec) x sps); [|contradiction]. now rewrite app_nil_r.
  - exfalso. apply H, in_or_app. now right.
  - rewrite filter_app. simpl. destruct (in_dec (list_eq_dec Byte.byte_eq_dec) x sps) as [Hi|Hi]; [exfalso; apply H, in_or_app; now left|].
    now rewrite app_assoc.
Qed.

Lemma ids_after_special vocab ps sps more id v : tok_fits vocab (sps ++ more) ->
  let t := tok_new (model_from vocab) ps sps in
  tok_id_to_token t id = Some v -> tok_id_to_token (add_special_tokens t more) id = Some v.
Proof.
  intros (H1 & H2 & _) t. unfold t. rewrite add_special_new.
  assert (Hr : (N.of_nat (length vocab + length (first_occurrences sps)) < 2 ^ 32)%N).
  { rewrite (proj2 (registered vocab ps sps more)), app_length in H2. lia. }
  rewrite !tok_id_to_token_iff by assumption. intros [H|(k & -> & Hk)]; [now left|right]. exists k. split; [reflexivity|].
  rewrite (proj2 (registered vocab ps sps more)). rewrite nth_error_app1; [exact Hk|]. apply nth_error_Some. congruence.
Qed.

Lemma adds_known vocab ps sps more : List.incl more sps ->
  add_special_tokens (tok_new (model_from vocab) ps sps) more = tok_new (model_from vocab) ps sps.
Proof.
  assert (Hok := specials_ok_new (model_from vocab) ps sps). assert (Hs := tok_new_specials (model_from vocab) ps sps).
  revert Hok Hs. generalize (tok_new (model_from vocab) ps sps) as t. intros t Hok Hs.
  induction more as [|x more IH]; intros Hi; [reflexivity|]. simpl.
  assert (Hx : add_special_token t x = t); [|rewrite Hx; apply IH; intros y Hy; apply Hi; now right].
  unfold add_special_token. rewrite (proj2 (specials_ok_contains x Hok)); [reflexivity|].
  rewrite Hs, first_occurrences_In. apply Hi. now left.
Qed.

Lemma Forall2_len {A B} (R : A -> B -> Prop) l l' : Forall2 R l l' -> length l = length l'.
Proof. induction 1; simpl; auto. Qed.

Lemma batch_ok {A B} (d : A) (f : nat -> A -> res B) (inputs : list A) sched outs : Permutation.Permutation sched (seq 0 (length inputs)) ->
  par_collect (fun i => f i (nth i inputs d)) (length inputs) sched = Ok outs <->
  Forall2 (fun i out => f i (nth i inputs d) = Ok out) (seq 0 (length inputs)) outs.
Proof.
  intros Hp. rewrite par_collect_ok by exact Hp. generalize (length inputs) as n. intros n.
  enough (HH : forall n k, (length outs = n /\ forall i a, nth_error outs i = Some a -> f (k + i) (nth (k + i) inputs d) = Ok a) <->
    Forall2 (fun i out => f i (nth i inputs d) = Ok out) (seq k n) outs) by (exact (HH n 0)).
  clear. induction outs as [|o outs IH]; intros n k.
  - split; [intros [<- _]; constructor|]. intros H. apply Forall2_len in H. rewrite seq_length in H. simpl in H. split; [now simpl|]. intros [|i]; discriminate.
  - destruct n as [|n]; simpl.
    { split; [intros [H _]; discriminate|inversion 1]. }
    split.
    + intros [Hl Hi]. constructor; [specialize (Hi 0 o eq_refl); now rewrite Nat.add_0_r in Hi|].
      apply IH. split; [lia|]. intros i a Ha. specialize (Hi (S i) a Ha). now rewrite Nat.add_succ_r in Hi.
    + intros H. inversion H as [|? ? ? ? H0 Hr]; subst. apply IH in Hr as [Hl Hi]. split; [lia|].
      intros [|i] a Ha; simpl in Ha; [injection Ha as <-; now rewrite Nat.add_0_r|]. rewrite Nat.add_succ_r. apply (Hi i a Ha).
Qed.

Lemma batch_err {A B} (d : A) (f : nat -> A -> res B) (inputs : list A) sched : Permutation.Permutation sched (seq 0 (length inputs)) ->
  (forall i s, nth_error inputs i = Some s -> (exists b, f i s = Ok b) \/ (exists e, f i s = Err e)) ->
  (forall outs, par_collect (fun i => f i (nth i inputs d)) (length inputs) sched <> Ok outs) ->
  exists i s e, nth_error inputs i = Some s /\ f i s = Err e /\
    par_collect (fun i => f i (nth i inputs d)) (length inputs) sched = Err e.
Proof.
  intros Hp Ht Hno.
  assert (Hnth : forall i, i < length inputs -> nth_error inputs i = Some (nth i inputs d)).
  { intros i Hi. now apply nth_error_nth'. }
  assert (Hc : (exists outs, Forall2 (fun i out => f i (nth i inputs d) = Ok out) (seq 0 (length inputs)) outs) \/
               (exists i e, i < length inputs /\ f i (nth i inputs d) = Err e)).
  { assert (Hin : forall i, In i (seq 0 (length inputs)) -> i < length inputs) by (intros i Hi; apply in_seq in Hi; lia).
    revert Hin. generalize (seq 0 (length inputs)) as l. induction l as [|i l IH]; intros Hin; [left; exists []; constructor|].
    destruct (Ht i _ (Hnth i (Hin i (or_introl eq_refl)))) as [(b & Hb)|(e & He)].
    - destruct IH as [(outs & Ho)|H]; [intros j Hj; apply Hin; now right| |now right]. left. exists (b :: outs). now constructor.
    - right. exists i, e. split; [apply Hin; now left|exact He]. }
  destruct Hc as [(outs & Ho)|Hex].
  - exfalso. apply (Hno outs). now apply batch_ok.
  - destruct (@par_collect_err _ (fun i => f i (nth i inputs d)) (length inputs) sched Hp) as (i & e & Hi & He & Hr).
    + intros i Hi. destruct (Ht i _ (Hnth i Hi)) as [(b & Hb)|(e & He)]; [rewrite Hb|rewrite He]; split; discriminate.
    + exact Hex.
    + exists i, (nth i inputs d), e. split; [now apply Hnth|]. now split.
Qed.

Lemma crlf_idem_iff s : crlf (crlf s) = crlf s <-> (forall a r, s <> a ++ x0d :: x0d :: x0a :: r).
Proof.
  split.
  - intros He a r Hs. destruct (CrDropped_cr_cr_lf _ _ Hs (crlf_spec s)) as (a' & r' & Hc).
    assert (H := crlf_spec (crlf s)). rewrite He in H. 
    assert (Hlen : forall s out, CrDropped s out -> length out <= length s) by (clear; induction 1; simpl in *; lia).
    assert (Hlt : forall a' s out r', s = a' ++ x0d :: x0a :: r' -> CrDropped s out -> length out < length s).
    { clear -Hlen. induction a' as [|b a' IH]; intros s out r' -> HD; simpl in HD.
      - inversion HD as [|r0 o Ho|b r0 o Hb Ho]; subst.
        + apply Hlen in Ho. simpl in *. lia.
        + exfalso. apply Hb. split; [reflexivity|eauto].
      - inversion HD as [|r0 o Ho|b0 r0 o Hb Ho]; subst; simpl.
        + apply Hlen in Ho. simpl in Ho. rewrite <- H0. simpl. lia.
        + specialize (IH _ _ r' eq_refl Ho). lia. }
    specialize (Hlt _ _ _ _ Hc H). lia.
  - intros Hno. assert (H := CrDropped_idem (crlf_spec s) Hno). exact (CrDropped_fun (crlf_spec _) H).
Qed.
