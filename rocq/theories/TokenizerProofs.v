From Verif Require Import Base BaseProofs F64 Utf8 SpecUtf8 Utf8Proofs Model SpecModel ModelProofs EncodeProofs
  Processor Tokenizer SpecTokenizer SplitProofs ProcessorProofs.
Set Implicit Arguments.

(** ** Registration of special tokens *)

Definition specials_ok (specials : list bytes) (m : list (bytes * N)) : Prop :=
  NoDup specials /\
  forall sp k, hm_get bytes_eqb sp m = Some k <-> exists i, nth_error specials i = Some sp /\ k = as_u32 i.

Lemma specials_ok_contains specials m sp : specials_ok specials m -> hm_contains bytes_eqb sp m = true <-> In sp specials.
Proof.
  intros [_ H]. unfold hm_contains. split.
  - destruct (hm_get bytes_eqb sp m) as [k|] eqn:E; [|discriminate]. intros _.
    apply H in E as (i & Hi & _). eapply nth_error_In; eauto.
  - intros Hin. apply In_nth_error in Hin as (i & Hi).
    assert (E : hm_get bytes_eqb sp m = Some (as_u32 i)) by (apply H; now exists i). now rewrite E.
Qed.

Lemma NoDup_snoc {A} (l : list A) a : NoDup l -> ~ In a l -> NoDup (l ++ [a]).
Proof.
  intros Hl Ha. apply NoDup_rev in Hl. rewrite <- (rev_involutive (l ++ [a])). apply NoDup_rev.
  rewrite rev_app_distr. simpl. constructor; [now rewrite <- in_rev|exact Hl].
Qed.

Lemma specials_ok_add t sp :
  specials_ok (tk_specials t) (tk_specials_map t) ->
  let t' := add_special_token t sp in specials_ok (tk_specials t') (tk_specials_map t').
Proof.
  intros H. unfold add_special_token. simpl.
  destruct (hm_contains bytes_eqb sp (tk_specials_map t)) eqn:E; [exact H|]. simpl.
  assert (Hn : ~ In sp (tk_specials t)) by (rewrite <- (specials_ok_contains sp H); congruence).
  destruct H as [Hnd H]. split; [now apply NoDup_snoc|].
  intros sp' k. rewrite (hm_get_insert bytes_eqb_spec). destruct (bytes_eqb_spec sp' sp) as [->|Hne].
  - split.
    + intros [= <-]. exists (length (tk_specials t)). split; [|reflexivity].
      rewrite nth_error_app2, Nat.sub_diag by lia. reflexivity.
    + intros (i & Hi & ->). f_equal. f_equal. destruct (Nat.lt_ge_cases i (length (tk_specials t))) as [Hlt|Hge].
      * rewrite nth_error_app1 in Hi by exact Hlt. exfalso. apply Hn. eapply nth_error_In; eauto.
      * rewrite nth_error_app2 in Hi by exact Hge. assert (i - length (tk_specials t) < 1).
        { change 1 with (length [sp]). apply nth_error_Some. congruence. }
        lia.
  - rewrite H. split; intros (i & Hi & Hk); exists i; (split; [|exact Hk]).
    + rewrite nth_error_app1; [exact Hi|]. apply nth_error_Some. congruence.
    + destruct (Nat.lt_ge_cases i (length (tk_specials t))) as [Hlt|Hge].
      * now rewrite nth_error_app1 in Hi by exact Hlt.
      * rewrite nth_error_app2 in Hi by exact Hge. destruct (i - length (tk_specials t)) as [|[|n]]; simpl in Hi; congruence.
Qed.

Lemma specials_ok_adds sps : forall t,
  specials_ok (tk_specials t) (tk_specials_map t) ->
  let t' := add_special_tokens t sps in specials_ok (tk_specials t') (tk_specials_map t').
Proof.
  induction sps as [|sp sps IH]; intros t H; [exact H|]. simpl. apply IH. now apply specials_ok_add.
Qed.

Lemma specials_ok_new m ps sps : specials_ok (tk_specials (tok_new m ps sps)) (tk_specials_map (tok_new m ps sps)).
Proof.
  apply specials_ok_adds. split; [constructor|]. simpl. intros sp k. split; [discriminate|].
  intros (i & Hi & _). now destruct i.
Qed.

Lemma adds_app t a b : add_special_tokens t (a ++ b) = add_special_tokens (add_special_tokens t a) b.
Proof. unfold add_special_tokens. now rewrite fold_left_app. Qed.

Lemma first_occurrences_snoc l x :
  first_occurrences (l ++ [x]) =
  if in_dec (list_eq_dec Byte.byte_eq_dec) x l then first_occurrences l else first_occurrences l ++ [x].
Proof.
  unfold first_occurrences. rewrite rev_app_distr. simpl.
  destruct (in_dec (list_eq_dec Byte.byte_eq_dec) x (rev l)) as [H|H], (in_dec (list_eq_dec Byte.byte_eq_dec) x l) as [H'|H'];
    rewrite <- in_rev in H; try contradiction; reflexivity.
Qed.

Lemma first_occurrences_In l x : In x (first_occurrences l) <-> In x l.
Proof. unfold first_occurrences. rewrite <- in_rev, nodup_In, <- in_rev. reflexivity. Qed.
Lemma first_occurrences_NoDup l : NoDup (first_occurrences l).
Proof. apply NoDup_rev, NoDup_nodup. Qed.

Lemma tok_new_specials m ps sps : tk_specials (tok_new m ps sps) = first_occurrences sps.
Proof.
  induction sps as [|x sps IH] using rev_ind; [reflexivity|].
  rewrite first_occurrences_snoc. unfold tok_new in *. rewrite adds_app.
  set (t := add_special_tokens (Tok m ps [] []) sps) in *. simpl. unfold add_special_token.
  assert (Ht : specials_ok (tk_specials t) (tk_specials_map t)) by exact (specials_ok_new m ps sps).
  assert (Hc := specials_ok_contains x Ht). rewrite IH, first_occurrences_In in Hc.
  destruct (hm_contains bytes_eqb x (tk_specials_map t)), (in_dec (list_eq_dec Byte.byte_eq_dec) x sps) as [H|H]; simpl;
    rewrite ?IH; auto; exfalso.
  - now apply H, Hc.
  - apply Hc in H. discriminate.
Qed.

Lemma adds_model t sps : tk_model (add_special_tokens t sps) = tk_model t.
Proof.
  revert t. induction sps as [|sp sps IH]; intros t; [reflexivity|]. simpl. rewrite IH.
  unfold add_special_token. now destruct (hm_contains _ _ _).
Qed.
Lemma adds_processors t sps : tk_processors (add_special_tokens t sps) = tk_processors t.
Proof.
  revert t. induction sps as [|sp sps IH]; intros t; [reflexivity|]. simpl. rewrite IH.
  unfold add_special_token. now destruct (hm_contains _ _ _).
Qed.
Lemma tok_new_model m ps sps : tk_model (tok_new m ps sps) = m.
Proof. apply adds_model. Qed.
Lemma tok_new_processors m ps sps : tk_processors (tok_new m ps sps) = ps.
Proof. apply adds_processors. Qed.

(** Adding special tokens and adding base tokens commute. *)
Lemma adds_base_comm toks sps : forall t,
  add_base_tokens (add_special_tokens t sps) toks = add_special_tokens (add_base_tokens t toks) sps.
Proof.
  induction sps as [|sp sps IH]; intros t; [reflexivity|]. simpl. rewrite IH. f_equal.
  unfold add_special_token, add_base_tokens. simpl. now destruct (hm_contains _ _ _).
Qed.

Inductive op := AddSpecial (l : list bytes) | AddBase (l : list scored_token).
Definition run_op (t : tokenizer) (o : op) : tokenizer :=
  match o with AddSpecial l => add_special_tokens t l | AddBase l => add_base_tokens t l end.
Definition op_specials (o : op) : list bytes := match o with AddSpecial l => l | AddBase _ => [] end.
Definition op_tokens (o : op) : list scored_token := match o with AddSpecial _ => [] | AddBase l => l end.

Lemma history_new ops : forall vocab ps sps,
  fold_left run_op ops (tok_new (model_from vocab) ps sps) =
  tok_new (model_from (vocab ++ flat_map op_tokens ops)) ps (sps ++ flat_map op_specials ops).
Proof.
  induction ops as [|[l|l] ops IH]; intros vocab ps sps; simpl.
  - now rewrite !app_nil_r.
  - replace (add_special_tokens (tok_new (model_from vocab) ps sps) l) with (tok_new (model_from vocab) ps (sps ++ l)).
    + rewrite IH, <- app_assoc. reflexivity.
    + unfold tok_new. now rewrite adds_app.
  - replace (add_base_tokens (tok_new (model_from vocab) ps sps) l) with (tok_new (model_from (vocab ++ l)) ps sps).
    + rewrite IH, <- app_assoc. reflexivity.
    + unfold tok_new. rewrite adds_base_comm. unfold add_base_tokens. simpl. now rewrite add_tokens_from.
Qed.

(** ** Encoding *)

Section Enc.
  Variable normalize : unicode_form -> bytes -> bytes.
  Hypothesis normalize_valid : forall f s, Utf8 s -> Utf8 (normalize f s).
  Variable vocab : list scored_token.
  Variable ps : list processor.
  Variable sps : list bytes.
  Let t := tok_new (model_from vocab) ps sps.
  Let specials := first_occurrences sps.
  Hypothesis Hfits : fits vocab.
  Hypothesis Hroom : (N.of_nat (length vocab + length specials) < 2 ^ 32)%N.
  Hypothesis Hvalid : Forall Utf8 sps.

  Lemma specials_valid : Forall Utf8 specials.
  Proof. rewrite Forall_forall in *. intros sp H. apply Hvalid. now apply first_occurrences_In. Qed.

  Lemma t_vocab : m_vocab (tk_model t) = vocab.
  Proof. unfold t. rewrite tok_new_model. apply model_from_vocab. Qed.
  Lemma t_size : as_u32 (vocab_size (tk_model t)) = N.of_nat (length vocab).
  Proof. unfold vocab_size. rewrite t_vocab. apply as_u32_small. unfold specials in *. lia. Qed.
  Lemma t_specials : tk_specials t = specials.
  Proof. apply tok_new_specials. Qed.

  Lemma special_id k sp : nth_error specials k = Some sp ->
    exists x, hm_get bytes_eqb sp (tk_specials_map t) = Some x /\
      u32_add (as_u32 (vocab_size (tk_model t))) x = N.of_nat (length vocab + k).
  Proof.
    intros Hk. assert (Hs := specials_ok_new (model_from vocab) ps sps). fold t in Hs. rewrite t_specials in Hs.
    assert (k < length specials) by (apply nth_error_Some; congruence).
    exists (as_u32 k). split; [apply Hs; now exists k|].
    rewrite t_size, as_u32_small by lia. rewrite u32_add_small by lia. lia.
  Qed.

  (** Encoding the pieces one after the other. *)
  Fixpoint run_pieces (rnd : nat -> nat -> f64) (d : f64) (j : nat) (pcs : list piece) : res (list N) :=
    match pcs with
    | [] => Ok []
    | Special k :: pcs' => r <- run_pieces rnd d (S j) pcs' ;; Ok (N.of_nat (length vocab + k) :: r)
    | Plain p :: pcs' =>
        a <- encode_ordinary normalize t (rnd j) p d ;; r <- run_pieces rnd d (S j) pcs' ;; Ok (a ++ r)
    end.

  (** With the empty string registered, every piece is a special token and an empty one repeats forever. *)
  Lemma encode_loop_empty n : In [] sps -> forall s pre, length s <= n -> Utf8 pre -> Utf8 s ->
    (exists pcs, Pieces specials s pcs /\ length pcs <= length s /\
       forall fuel rnd d j ids, length pcs < fuel ->
         tok_encode_loop normalize fuel t rnd d (pre ++ s) (length pre) j ids =
         (r <- run_pieces rnd d j pcs ;; Ok (ids ++ r))) \/
    ((forall pcs, ~ Pieces specials s pcs) /\
     forall fuel rnd d j ids, tok_encode_loop normalize fuel t rnd d (pre ++ s) (length pre) j ids = Diverge).
  Proof.
    intros Hin. assert (Hin' : In [] specials) by (unfold specials; now rewrite first_occurrences_In).
    induction n as [|n IH]; intros s pre Hn Hpre Hs.
    - destruct s as [|x s]; [|simpl in Hn; lia]. left. exists []. split; [constructor|]. split; [simpl; lia|].
      intros [|fuel] rnd d j ids Hf; [simpl in Hf; lia|]. cbn [tok_encode_loop]. unfold split_next.
      rewrite app_nil_r, Nat.leb_refl. cbn [bind run_pieces]. now rewrite app_nil_r.
    - destruct s as [|x s'].
      { left. exists []. split; [constructor|]. split; [simpl; lia|].
        intros [|fuel] rnd d j ids Hf; [simpl in Hf; lia|]. cbn [tok_encode_loop]. unfold split_next.
        rewrite app_nil_r, Nat.leb_refl. cbn [bind run_pieces]. now rewrite app_nil_r. }
      assert (Hsn : x :: s' <> []) by discriminate. remember (x :: s') as s eqn:Es. clear x s' Es.
      destruct (split_next_empty specials_valid Hin' Hpre Hs Hsn) as (k & sp & rest & Hse & Hk & Hsk & Hr).
      destruct (special_id k Hsk) as (x & Hx & Hid).
      destruct sp as [|b sp].
      + right. rewrite app_nil_r in Hr. simpl in Hse. subst rest. split.
        * enough (HH : forall s0 pcs, Pieces specials s0 pcs -> s0 = s -> False) by (intros pcs HP; exact (HH _ _ HP eq_refl)).
          induction 1 as [|k' sp' r ps' Hnn Hk' Hsk' HP IHP|p r ps' Hp Hno Hend HP IHP]; intros Es.
          -- congruence.
          -- assert (k' = k) by (rewrite Es in Hk'; exact (special_at_fun Hk' Hk)). subst k'.
             assert (sp' = []) by congruence. subst sp'. simpl in Es. now apply IHP.
          -- apply (special_at_not_none Hk). rewrite <- Es. apply (Hno []); [reflexivity|exact Hp].
        * induction fuel as [|fuel IHf]; intros rnd d j ids; [reflexivity|].
          cbn [tok_encode_loop]. rewrite t_specials, Hr. cbn [bind]. rewrite Hx. apply IHf.
      + assert (Hspv : Utf8 (b :: sp)).
        { assert (H := specials_valid). rewrite Forall_forall in H. apply H. eapply nth_error_In; eauto. }
        subst s. destruct (IH rest (pre ++ b :: sp)) as [(pcs & HP & Hl & Hrun)|[HP Hrun]].
        * rewrite app_length in Hn. simpl in Hn. lia.
        * now apply Utf8_app.
        * exact (Utf8_app_inv _ Hspv Hs).
        * left. exists (Special k :: pcs). split; [now constructor|]. split; [rewrite app_length; simpl; lia|].
          intros [|fuel] rnd d j ids Hf; [simpl in Hf; lia|].
          cbn [tok_encode_loop]. rewrite t_specials, Hr. cbn [bind]. rewrite Hx, Hid, (app_assoc pre (b :: sp) rest).
          rewrite Hrun by (simpl in Hf; lia). cbn [run_pieces].
          destruct (run_pieces rnd d (S j) pcs); cbn [bind]; try reflexivity. now rewrite <- app_assoc.
        * right. split.
          -- intros pcs HPs. remember ((b :: sp) ++ rest) as s eqn:Es.
             destruct HPs as [|k' sp' r ps' Hnn Hk' Hsk' HP'|p r ps' Hp Hno Hend HP']; [congruence| |].
             ++ assert (k' = k) by exact (special_at_fun Hk' Hk). subst k'.
                assert (sp' = b :: sp) by congruence. subst sp'. apply app_inv_head in Es. subst r. exact (HP _ HP').
             ++ apply (special_at_not_none Hk). apply (Hno []); [reflexivity|exact Hp].
          -- intros [|fuel] rnd d j ids; [reflexivity|].
             cbn [tok_encode_loop]. rewrite t_specials, Hr. cbn [bind]. rewrite Hx, (app_assoc pre (b :: sp) rest). apply Hrun.
  Qed.

  Hypothesis Hnonempty : Forall (fun sp => sp <> []) sps.
  Lemma specials_nonempty : Forall (fun sp => sp <> []) specials.
  Proof. rewrite Forall_forall in *. intros sp H. apply Hnonempty. now apply first_occurrences_In. Qed.

  Lemma encode_loop_pieces n : forall s pre, length s <= n -> Utf8 pre -> Utf8 s ->
    exists pcs, Pieces specials s pcs /\
      Forall (fun pc => match pc with Plain p => Utf8 p | Special _ => True end) pcs /\
      forall fuel rnd d j ids, length pcs < fuel ->
        tok_encode_loop normalize fuel t rnd d (pre ++ s) (length pre) j ids =
        (r <- run_pieces rnd d j pcs ;; Ok (ids ++ r)).
  Proof.
    induction n as [|n IH]; intros s pre Hn Hpre Hs;
      destruct (split_next_spec specials_valid specials_nonempty Hpre Hs) as
        [[-> Hr]|[(k & sp & rest & -> & Hk & Hsk & Hr)|(p & rest & -> & Hp & Hpv & Hr & Hno & Hend)]].
    - exists []. split; [constructor|]. split; [constructor|]. intros [|fuel] rnd d j ids Hf; [simpl in Hf; lia|].
      cbn [tok_encode_loop]. rewrite t_specials, Hr. cbn [bind run_pieces]. now rewrite app_nil_r.
    - exfalso. rewrite app_length in Hn. assert (Hne := specials_nonempty). rewrite Forall_forall in Hne.
      apply (Hne sp); [eapply nth_error_In; eauto|]. destruct sp; [reflexivity|simpl in Hn; lia].
    - exfalso. rewrite app_length in Hn. destruct p; [congruence|simpl in Hn; lia].
    - exists []. split; [constructor|]. split; [constructor|]. intros [|fuel] rnd d j ids Hf; [simpl in Hf; lia|].
      cbn [tok_encode_loop]. rewrite t_specials, Hr. cbn [bind run_pieces]. now rewrite app_nil_r.
    - assert (Hspv : Utf8 sp).
      { assert (H := specials_valid). rewrite Forall_forall in H. apply H. eapply nth_error_In; eauto. }
      destruct (IH rest (pre ++ sp)) as (pcs & HP & HF & Hrun).
      + rewrite app_length in Hn. assert (Hne := specials_nonempty). rewrite Forall_forall in Hne.
        specialize (Hne sp (nth_error_In _ _ Hsk)). destruct sp; [congruence|simpl in Hn; lia].
      + now apply Utf8_app.
      + exact (Utf8_app_inv _ Hspv Hs).
      + exists (Special k :: pcs). split; [constructor; auto; intros H; apply app_eq_nil in H as [-> _]; assert (Hne := specials_nonempty); rewrite Forall_forall in Hne; exact (Hne _ (nth_error_In _ _ Hsk) eq_refl)|]. split; [now constructor|].
        intros [|fuel] rnd d j ids Hf; [simpl in Hf; lia|].
        cbn [tok_encode_loop]. rewrite t_specials, Hr. cbn [bind].
        destruct (special_id k Hsk) as (x & Hx & Hid). rewrite Hx, Hid, (app_assoc pre sp rest).
        rewrite Hrun by (simpl in Hf; lia). cbn [run_pieces].
        destruct (run_pieces rnd d (S j) pcs); cbn [bind]; try reflexivity. now rewrite <- app_assoc.
    - destruct (IH rest (pre ++ p)) as (pcs & HP & HF & Hrun).
      + rewrite app_length in Hn. destruct p; [congruence|simpl in Hn; lia].
      + now apply Utf8_app.
      + exact (Utf8_app_inv _ Hpv Hs).
      + exists (Plain p :: pcs). split; [now constructor|]. split; [now constructor|].
        intros [|fuel] rnd d j ids Hf; [simpl in Hf; lia|].
        cbn [tok_encode_loop]. rewrite t_specials, Hr. cbn [bind run_pieces].
        fold (encode_ordinary normalize t (rnd j) p d).
        destruct (encode_ordinary normalize t (rnd j) p d) as [a| | |]; cbn [bind]; try reflexivity.
        rewrite (app_assoc pre p rest), Hrun by (simpl in Hf; lia).
        destruct (run_pieces rnd d (S j) pcs); cbn [bind]; try reflexivity. now rewrite <- app_assoc.
  Qed.

  Lemma tok_encode_pieces s : Utf8 s ->
    exists pcs, Pieces specials s pcs /\
      Forall (fun pc => match pc with Plain p => Utf8 p | Special _ => True end) pcs /\
      length pcs <= length s /\
      forall fuel rnd d, length s < fuel -> tok_encode normalize fuel t rnd s d = run_pieces rnd d 0 pcs.
  Proof.
    intros Hs. destruct (encode_loop_pieces (le_n (length s)) Utf8_nil Hs) as (pcs & HP & HF & Hrun).
    assert (Hl := Pieces_length specials_nonempty HP).
    exists pcs. split; [exact HP|]. split; [exact HF|]. split; [exact Hl|].
    intros fuel rnd d Hf. unfold tok_encode. specialize (Hrun fuel rnd d 0 []). cbn [app length] in Hrun.
    rewrite Hrun by lia. destruct (run_pieces rnd d 0 pcs); reflexivity.
  Qed.

  (** What [run_pieces] returns, piece by piece. *)
  Definition piece_result (rnd : nat -> nat -> f64) (d : f64) (j : nat) (pc : piece) : res (list N) :=
    match pc with
    | Special k => Ok [N.of_nat (length vocab + k)]
    | Plain p => encode_ordinary normalize t (rnd j) p d
    end.

  Lemma run_pieces_ok rnd d pcs : forall j ids,
    run_pieces rnd d j pcs = Ok ids <->
    exists parts, ids = concat parts /\ length parts = length pcs /\
      forall i pc part, nth_error pcs i = Some pc -> nth_error parts i = Some part ->
        piece_result rnd d (j + i) pc = Ok part.
  Proof.
    induction pcs as [|pc pcs IH]; intros j ids.
    - simpl. split.
      + intros [= <-]. exists []. split; [reflexivity|]. split; [reflexivity|]. intros [|i]; discriminate.
      + intros ([|] & -> & Hl & _); [reflexivity|discriminate].
    - assert (Hstep : run_pieces rnd d j (pc :: pcs) =
        (a <- piece_result rnd d j pc ;; r <- run_pieces rnd d (S j) pcs ;; Ok (a ++ r))).
      { destruct pc; [|reflexivity]. simpl. reflexivity. }
      rewrite Hstep. split.
      + destruct (piece_result rnd d j pc) as [a| | |] eqn:Ea; try discriminate. cbn [bind].
        destruct (run_pieces rnd d (S j) pcs) as [r| | |] eqn:Er; try discriminate. cbn [bind]. intros [= <-].
        apply IH in Er as (parts & -> & Hl & Hp). exists (a :: parts). split; [reflexivity|]. split; [simpl; lia|].
        intros [|i] pc' part H1 H2; simpl in H1, H2.
        * injection H1 as <-. injection H2 as <-. now rewrite Nat.add_0_r.
        * rewrite <- (Hp i pc' part H1 H2). f_equal. lia.
      + intros ([|a parts] & -> & Hl & Hp); [discriminate|]. simpl in Hl.
        assert (Ha := Hp 0 pc a eq_refl eq_refl). rewrite Nat.add_0_r in Ha. rewrite Ha. cbn [bind].
        assert (Er : run_pieces rnd d (S j) pcs = Ok (concat parts)).
        { apply IH. exists parts. split; [reflexivity|]. split; [lia|]. intros i pc' part H1 H2.
          rewrite <- (Hp (S i) pc' part H1 H2). f_equal. lia. }
        rewrite Er. reflexivity.
  Qed.

  Lemma piece_total rnd d j pc :
    (exists ids, piece_result rnd d j pc = Ok ids) \/
    (exists p n, pc = Plain p /\ n = length (preprocess_all normalize ps p) /\ piece_result rnd d j pc = Err (NoPath n n)).
  Proof.
    destruct pc as [k|p]; simpl; [left; now eexists|]. unfold encode_ordinary, t. rewrite tok_new_model, tok_new_processors.
    destruct (encode_total Hfits (rnd j) (preprocess_all normalize ps p) d) as [(ids & H)|H]; rewrite H.
    - left. now exists ids.
    - right. now exists p, (length (preprocess_all normalize ps p)).
  Qed.

  Lemma run_pieces_err rnd d pcs : forall j e,
    run_pieces rnd d j pcs = Err e <->
    exists i pc, nth_error pcs i = Some pc /\ piece_result rnd d (j + i) pc = Err e /\
      forall i' pc', i' < i -> nth_error pcs i' = Some pc' -> exists ids, piece_result rnd d (j + i') pc' = Ok ids.
  Proof.
    induction pcs as [|pc pcs IH]; intros j e.
    - simpl. split; [discriminate|]. intros ([|i] & pc & H & _); discriminate.
    - assert (Hstep : run_pieces rnd d j (pc :: pcs) =
        (a <- piece_result rnd d j pc ;; r <- run_pieces rnd d (S j) pcs ;; Ok (a ++ r))).
      { destruct pc; [|reflexivity]. simpl. reflexivity. }
      rewrite Hstep. destruct (piece_total rnd d j pc) as [(a & Ha)|(p & n & -> & _ & Ha)]; rewrite Ha; cbn [bind].
      + split.
        * destruct (run_pieces rnd d (S j) pcs) as [r|e'| |] eqn:Er; try discriminate. cbn [bind]. intros [= ->].
          apply IH in Er as (i & pc' & Hi & He & Hbefore). exists (S i), pc'. split; [exact Hi|].
          split; [rewrite <- He; f_equal; lia|].
          intros [|i'] pc'' Hlt H; simpl in H; [injection H as <-; rewrite Nat.add_0_r; now exists a|].
          destruct (Hbefore i' pc'') as (ids & H'); [lia|exact H|]. exists ids. rewrite <- H'. f_equal. lia.
        * intros ([|i] & pc' & Hi & He & Hbefore); simpl in Hi.
          -- injection Hi as <-. rewrite Nat.add_0_r in He. congruence.
          -- assert (Er : run_pieces rnd d (S j) pcs = Err e).
             { apply IH. exists i, pc'. split; [exact Hi|]. split; [rewrite <- He; f_equal; lia|].
               intros i' pc'' Hlt H. destruct (Hbefore (S i') pc'') as (ids & H'); [lia|exact H|].
               exists ids. rewrite <- H'. f_equal. lia. }
             now rewrite Er.
      + split.
        * intros [= <-]. exists 0, (Plain p). split; [reflexivity|]. rewrite Nat.add_0_r. split; [exact Ha|]. intros i' pc' Hlt. lia.
        * intros ([|i] & pc' & Hi & He & Hbefore); simpl in Hi.
          -- injection Hi as <-. rewrite Nat.add_0_r in He. congruence.
          -- destruct (Hbefore 0 (Plain p)) as (ids & H'); [lia|reflexivity|]. rewrite Nat.add_0_r in H'. congruence.
  Qed.

  Lemma run_pieces_total rnd d pcs : forall j,
    (exists ids, run_pieces rnd d j pcs = Ok ids) \/ (exists n, run_pieces rnd d j pcs = Err (NoPath n n)).
  Proof.
    induction pcs as [|pc pcs IH]; intros j; [left; now exists []|].
    assert (Hstep : run_pieces rnd d j (pc :: pcs) =
      (a <- piece_result rnd d j pc ;; r <- run_pieces rnd d (S j) pcs ;; Ok (a ++ r))).
    { destruct pc; [|reflexivity]. simpl. reflexivity. }
    rewrite Hstep. destruct (piece_total rnd d j pc) as [(a & Ha)|(p & n & -> & _ & Ha)]; rewrite Ha; cbn [bind].
    - destruct (IH (S j)) as [(r & Hr)|(n & Hr)]; rewrite Hr; cbn [bind]; [left|right]; eauto.
    - right. now exists n.
  Qed.
End Enc.

(** ** Decoding *)

Lemma Spells_lt vocab ids bs : Spells vocab ids bs -> Forall (fun id => (id < N.of_nat (length vocab))%N) ids.
Proof.
  induction 1 as [|id t ids s Ht HS IH]; constructor; auto.
  assert (N.to_nat id < length vocab) by (apply nth_error_Some; unfold token_at in Ht; congruence). lia.
Qed.

Lemma Spells_fun vocab ids bs : Spells vocab ids bs -> forall bs', Spells vocab ids bs' -> bs = bs'.
Proof.
  induction 1 as [|id t ids s Ht HS IH]; intros bs' H'; inversion H'; subst; [reflexivity|].
  unfold token_at in *. f_equal; [congruence|now apply IH].
Qed.

Lemma Spells_exists vocab ids : Forall (fun id => (id < N.of_nat (length vocab))%N) ids -> exists bs, Spells vocab ids bs.
Proof.
  induction ids as [|id ids IH]; intros H; [exists []; constructor|]. inversion H as [|? ? Hid H']; subst.
  destruct (IH H') as (bs & Hbs). destruct (nth_error vocab (N.to_nat id)) as [t|] eqn:E.
  - exists (st_value t ++ bs). now constructor.
  - apply nth_error_None in E. lia.
Qed.

Lemma Spells_app vocab a s : Spells vocab a s -> forall b r, Spells vocab b r -> Spells vocab (a ++ b) (s ++ r).
Proof.
  induction 1 as [|id t ids s Ht HS IH]; intros b r Hb; simpl; [exact Hb|].
  rewrite <- app_assoc. constructor; auto.
Qed.

Lemma decode_run vocab ids : fits vocab -> Forall (fun id => (id < N.of_nat (length vocab))%N) ids ->
  exists bs out, Spells vocab ids bs /\ Lossy bs out /\ decode (model_from vocab) ids = Ok out.
Proof.
  intros Hf Hlt. destruct (Spells_exists _ Hlt) as (bs & Hbs). exists bs, (from_utf8_lossy bs).
  split; [exact Hbs|]. split; [apply from_utf8_lossy_spec|]. unfold decode.
  rewrite (proj2 (decode_bytes_Spells ids bs Hf) Hbs). reflexivity.
Qed.

Lemma position_some n ids idx : position_special n ids = Some idx ->
  exists a id b, ids = a ++ id :: b /\ length a = idx /\ Forall (fun i => (i < n)%N) a /\ (n <= id)%N.
Proof.
  revert idx. induction ids as [|id ids IH]; intros idx; simpl; [discriminate|].
  destruct (N.leb_spec n id) as [Hle|Hgt].
  - intros [= <-]. exists [], id, ids. repeat split; auto.
  - destruct (position_special n ids) as [i|]; [|discriminate]. simpl. intros [= <-].
    destruct (IH i eq_refl) as (a & id' & b & -> & <- & Ha & Hid). exists (id :: a), id', b.
    repeat split; auto.
Qed.

Lemma position_none n ids : position_special n ids = None -> Forall (fun i => (i < n)%N) ids.
Proof.
  induction ids as [|id ids IH]; simpl; [constructor|].
  destruct (N.leb_spec n id) as [Hle|Hgt]; [discriminate|].
  destruct (position_special n ids); [discriminate|]. auto.
Qed.

Section Dec.
  Variable vocab : list scored_token.
  Variable ps : list processor.
  Variable sps : list bytes.
  Let t := tok_new (model_from vocab) ps sps.
  Let specials := first_occurrences sps.
  Hypothesis Hfits : fits vocab.
  Hypothesis Hroom : (N.of_nat (length vocab + length specials) < 2 ^ 32)%N.

  Lemma decode_loop_spec incl n : forall ids output, length ids < n ->
    (exists out, tok_decode_loop n t incl ids output = Ok (output ++ out) /\ Decodes vocab specials incl ids out) \/
    (exists id, tok_decode_loop n t incl ids output = Err (TokenIdOutOfBounds id) /\
       first_beyond (N.of_nat (length vocab + length specials)) ids id).
  Proof.
    induction n as [|n IH]; intros ids output Hn; [lia|]. cbn [tok_decode_loop].
    assert (Hsz : as_u32 (vocab_size (tk_model t)) = N.of_nat (length vocab)) by exact (t_size vocab ps sps Hroom).
    assert (Hm : tk_model t = model_from vocab) by apply tok_new_model.
    rewrite Hsz. destruct (position_special (N.of_nat (length vocab)) ids) as [idx|] eqn:Ep.
    - apply position_some in Ep as (a & id & b & -> & <- & Ha & Hid).
      rewrite firstn_app, firstn_all, Nat.sub_diag, firstn_O, app_nil_r, Hm.
      destruct (decode_run Hfits Ha) as (bs & out & Hbs & Hl & Hd). rewrite Hd. cbn [bind].
      unfold index. rewrite nth_error_app2, Nat.sub_diag by lia. cbn [nth_error bind].
      assert (Hsp : tk_specials t = specials) by exact (t_specials vocab ps sps). rewrite Hsp, postprocess_all_id.
      destruct (nth_error specials (N.to_nat (id - N.of_nat (length vocab)))) as [sp|] eqn:Es.
      + set (k := N.to_nat (id - N.of_nat (length vocab))) in *.
        assert (Hidk : id = N.of_nat (length vocab + k)) by lia.
        replace (skipn (S (length a)) (a ++ id :: b)) with b.
        2: { change (S (length a)) with (1 + length a). rewrite Nat.add_comm, <- skipn_skipn', skipn_app, skipn_all, Nat.sub_diag. reflexivity. }
        destruct (IH b (if incl then (output ++ out) ++ sp else output ++ out)) as [(out' & Hr & HD)|(id' & Hr & a' & b' & -> & Ha' & Hid')].
        * rewrite app_length in Hn. simpl in Hn. lia.
        * left. exists (out ++ (if incl then sp else []) ++ out'). split.
          -- refine (eq_trans Hr _). destruct incl; simpl; rewrite <- ?app_assoc; reflexivity.
          -- rewrite Hidk. now apply Decodes_special with bs.
        * right. exists id'. split; [exact Hr|]. exists (a ++ id :: a'), b'.
          split; [now rewrite <- app_assoc|]. split; [|exact Hid']. apply Forall_app. split.
          -- eapply Forall_impl; [|exact Ha]. simpl. intros. lia.
          -- constructor; [|exact Ha']. assert (k < length specials) by (apply nth_error_Some; congruence). lia.
      + right. exists id. split; [reflexivity|]. exists a, b. split; [reflexivity|]. split.
        * eapply Forall_impl; [|exact Ha]. simpl. intros. lia.
        * apply nth_error_None in Es. lia.
    - apply position_none in Ep. rewrite Hm. destruct (decode_run Hfits Ep) as (bs & out & Hbs & Hl & Hd).
      rewrite Hd. cbn [bind]. rewrite postprocess_all_id. left. exists out. split; [reflexivity|]. now apply Decodes_last with bs.
  Qed.

  Lemma Decodes_lt incl ids out : Decodes vocab specials incl ids out ->
    Forall (fun id => (id < N.of_nat (length vocab + length specials))%N) ids.
  Proof.
    assert (Hrun : forall run bs, Spells vocab run bs -> Forall (fun id => (id < N.of_nat (length vocab + length specials))%N) run).
    { intros run bs H. apply Spells_lt in H. eapply Forall_impl; [|exact H]. simpl. intros. lia. }
    induction 1 as [run bs out HS HL|run bs out k sp ids out' HS HL Hk HD IH]; [eauto|].
    apply Forall_app. split; [eauto|]. constructor; [|exact IH].
    assert (k < length specials) by (apply nth_error_Some; congruence). lia.
  Qed.

  Lemma split_lt_unique n a id b a' id' b' :
    a ++ id :: b = a' ++ id' :: b' -> Forall (fun i => (i < n)%N) a -> (n <= id)%N ->
    Forall (fun i => (i < n)%N) a' -> (n <= id')%N -> a = a' /\ id = id' /\ b = b'.
  Proof.
    revert a'. induction a as [|x a IH]; intros [|y a'] H Ha Hid Ha' Hid'; simpl in H.
    - injection H as -> ->. auto.
    - injection H as Hx _. inversion Ha'. subst. lia.
    - injection H as Hx _. inversion Ha. subst. lia.
    - injection H as -> H. inversion Ha; inversion Ha'; subst. destruct (IH a' H) as (-> & -> & ->); auto.
  Qed.

  Lemma Decodes_fun incl ids out : Decodes vocab specials incl ids out -> forall out', Decodes vocab specials incl ids out' -> out = out'.
  Proof.
    induction 1 as [run bs out HS HL|run bs out k sp ids out' HS HL Hk HD IH]; intros o H'.
    - inversion H' as [run0 bs0 out0 HS0 HL0|run0 bs0 out0 k0 sp0 ids0 out0' HS0 HL0 Hk0 HD0]; subst.
      + rewrite (Spells_fun HS HS0) in HL. exact (Lossy_fun HL HL0).
      + exfalso. apply Spells_lt in HS. apply Forall_app in HS as [_ HS]. inversion HS. lia.
    - inversion H' as [run0 bs0 out0 HS0 HL0|run0 bs0 out0 k0 sp0 ids0 out0' HS0 HL0 Hk0 HD0]; subst.
      + exfalso. apply Spells_lt in HS0. apply Forall_app in HS0 as [_ HS0]. inversion HS0. lia.
      + destruct (@split_lt_unique (N.of_nat (length vocab)) _ _ _ _ _ _ H) as (-> & Hid & ->);
          try (eapply Spells_lt; eassumption); try lia.
        assert (k0 = k) by lia. subst k0. assert (sp0 = sp) by congruence. subst sp0.
        rewrite (Spells_fun HS HS0) in HL. rewrite (Lossy_fun HL HL0), (IH _ HD0). reflexivity.
  Qed.

  Lemma tok_decode_ok incl ids out : tok_decode t ids incl = Ok out <-> Decodes vocab specials incl ids out.
  Proof.
    unfold tok_decode. destruct (decode_loop_spec incl (n := S (length ids)) ids []) as [(out' & Hr & HD)|(id & Hr & a & b & -> & Ha & Hid)]; [lia| |].
    - rewrite Hr. split; [now intros [= <-]|]. intros HD'. f_equal. exact (Decodes_fun HD HD').
    - rewrite Hr. split; [discriminate|]. intros HD. exfalso. apply Decodes_lt in HD. apply Forall_app in HD as [_ HD].
      inversion HD. lia.
  Qed.

  Lemma tok_decode_err incl ids e : tok_decode t ids incl = Err e <->
    exists id, e = TokenIdOutOfBounds id /\ first_beyond (N.of_nat (length vocab + length specials)) ids id.
  Proof.
    unfold tok_decode. destruct (decode_loop_spec incl (n := S (length ids)) ids []) as [(out' & Hr & HD)|(id & Hr & Hb)]; [lia| |].
    - rewrite Hr. split; [discriminate|]. intros (id & -> & a & b & -> & Ha & Hid). exfalso.
      apply Decodes_lt in HD. apply Forall_app in HD as [_ HD]. inversion HD. lia.
    - rewrite Hr. split.
      + intros [= <-]. now exists id.
      + intros (id' & -> & a' & b' & He & Ha' & Hid'). destruct Hb as (a & b & -> & Ha & Hid).
        destruct (@split_lt_unique _ _ _ _ _ _ _ He Ha Hid Ha' Hid') as (_ & -> & _). reflexivity.
  Qed.

  Lemma tok_decode_total incl ids :
    (exists out, tok_decode t ids incl = Ok out) \/ (exists id, tok_decode t ids incl = Err (TokenIdOutOfBounds id)).
  Proof.
    unfold tok_decode. destruct (decode_loop_spec incl (n := S (length ids)) ids []) as [(out' & Hr & HD)|(id & Hr & Hb)]; [lia| |]; eauto.
  Qed.

  (** A valid run in front. *)
  Lemma Lossy_app_valid a : Utf8 a -> forall bs out, Lossy bs out -> Lossy (a ++ bs) (a ++ out).
  Proof.
    intros (cs & Hcs & ->). induction cs as [|c cs IH]; intros bs out H; [exact H|].
    inversion Hcs; subst. rewrite encode_string_cons, <- !app_assoc. constructor; auto.
  Qed.

  Lemma Decodes_app incl run bs ids out : Spells vocab run bs -> Utf8 bs -> Decodes vocab specials incl ids out ->
    Decodes vocab specials incl (run ++ ids) (bs ++ out).
  Proof.
    intros HS Hu HD. destruct HD as [run' bs' out' HS' HL'|run' bs' out' k sp ids' out'' HS' HL' Hk HD].
    - apply Decodes_last with (bs ++ bs'); [now apply Spells_app|now apply Lossy_app_valid].
    - rewrite !app_assoc. rewrite <- (app_assoc (bs ++ out')). apply Decodes_special with (bs ++ bs'); auto.
      + now apply Spells_app.
      + now apply Lossy_app_valid.
  Qed.

  (** The same without any assumption on the processors: the valid output of [encode_ordinary]. *)
  Lemma Cut_Spells' ids s : Cut vocab ids s -> Spells vocab ids s.
  Proof. apply Cut_Spells. Qed.
End Dec.

Section Round.
  Variable normalize : unicode_form -> bytes -> bytes.
  Hypothesis normalize_valid : forall f s, Utf8 s -> Utf8 (normalize f s).
  Variable vocab : list scored_token.
  Variable ps : list processor.
  Variable sps : list bytes.
  Let t := tok_new (model_from vocab) ps sps.
  Let specials := first_occurrences sps.
  Hypothesis Hfits : fits vocab.
  Hypothesis Hroom : (N.of_nat (length vocab + length specials) < 2 ^ 32)%N.
  Hypothesis Hvalid : Forall Utf8 sps.

  Lemma encode_ordinary_Spells rnd s d ids :
    encode_ordinary normalize t rnd s d = Ok ids -> Spells vocab ids (preprocess_all normalize ps s).
  Proof.
    unfold encode_ordinary, t. rewrite tok_new_model, tok_new_processors. intros H.
    apply (encode_sound Hfits) in H. now apply Cut_Spells.
  Qed.

  Lemma decode_encode_ordinary rnd s d ids incl : Utf8 s ->
    encode_ordinary normalize t rnd s d = Ok ids -> tok_decode t ids incl = Ok (preprocess_all normalize ps s).
  Proof.
    intros Hs H. apply encode_ordinary_Spells in H. unfold t. apply tok_decode_ok; auto.
    assert (Hv := preprocess_all_valid normalize normalize_valid ps Hs).
    apply Decodes_last with (preprocess_all normalize ps s); [exact H|].
    rewrite <- (lossy_valid Hv) at 2. apply from_utf8_lossy_spec.
  Qed.

  (** The text shown by decode for a piece. *)
  Definition shown (incl : bool) (pc : piece) : bytes :=
    match pc with
    | Special k => if incl then nth k specials [] else []
    | Plain p => preprocess_all normalize ps p
    end.

  Lemma decode_pieces incl rnd d pcs : forall j ids,
    Forall (fun pc => match pc with Plain p => Utf8 p | Special k => k < length specials end) pcs ->
    run_pieces normalize vocab ps sps rnd d j pcs = Ok ids ->
    Decodes vocab specials incl ids (concat (map (shown incl) pcs)).
  Proof.
    induction pcs as [|[k|p] pcs IH]; intros j ids HF H; cbn [run_pieces] in H.
    - injection H as <-. apply Decodes_last with []; constructor.
    - inversion HF as [|? ? Hk HF']; subst.
      destruct (run_pieces normalize vocab ps sps rnd d (S j) pcs) as [r| | |] eqn:Er; try discriminate.
      cbn [bind] in H. injection H as <-. simpl.
      apply Decodes_special with (run := []) (bs := []) (out := []); try constructor.
      + exact (nth_error_nth' specials [] Hk).
      + eapply IH; eauto.
    - inversion HF as [|? ? Hp HF']; subst. fold t in H.
      destruct (encode_ordinary normalize t (rnd j) p d) as [a| | |] eqn:Ea; try discriminate. cbn [bind] in H.
      destruct (run_pieces normalize vocab ps sps rnd d (S j) pcs) as [r| | |] eqn:Er; try discriminate.
      cbn [bind] in H. injection H as <-. simpl. apply Decodes_app.
      + eapply encode_ordinary_Spells; eauto.
      + now apply preprocess_all_valid.
      + eapply IH; eauto.
  Qed.
End Round.

Lemma Pieces_index specials s pcs : Pieces specials s pcs ->
  Forall (fun pc => match pc with Plain p => True | Special k => k < length specials end) pcs.
Proof.
  induction 1 as [|k sp r ps Hnn Hk Hsk HP IH|p r ps Hp Hno Hend HP IH]; constructor; auto.
  apply nth_error_Some. congruence.
Qed.

(** ** Batches *)

From Coq Require Import Permutation.

Lemma par_run_ok {A} (f : nat -> res A) sched :
  (forall i, In i sched -> exists a, f i = Ok a) -> par_run f sched = Ok tt.
Proof.
  induction sched as [|i sched IH]; intros H; simpl; [reflexivity|].
  destruct (H i (or_introl eq_refl)) as (a & ->). simpl. apply IH. intros; apply H; now right.
Qed.

Lemma collect_all_ok {A} (f : nat -> res A) g idx :
  (forall i, In i idx -> f i = Ok (g i)) -> collect_all f idx = Ok (map g idx).
Proof.
  induction idx as [|i idx IH]; intros H; simpl; [reflexivity|].
  rewrite (H i (or_introl eq_refl)). simpl. rewrite IH; [reflexivity|]. intros; apply H; now right.
Qed.

Lemma par_run_inv {A} (f : nat -> res A) sched : par_run f sched = Ok tt -> forall i, In i sched -> exists a, f i = Ok a.
Proof.
  induction sched as [|i sched IH]; intros H j []; simpl in H.
  - subst j. destruct (f i); try discriminate. eauto.
  - destruct (f i); try discriminate. now apply IH.
Qed.

Lemma par_collect_ok {A} (f : nat -> res A) n sched l : Permutation sched (seq 0 n) ->
  par_collect f n sched = Ok l <-> length l = n /\ forall i a, nth_error l i = Some a -> f i = Ok a.
Proof.
  intros HP. unfold par_collect. split.
  - destruct (par_run f sched) as [[]| | |] eqn:E; try discriminate. simpl. intros Hc. clear E HP sched.
    assert (H : forall k, collect_all f (seq k n) = Ok l -> length l = n /\ forall i a, nth_error l i = Some a -> f (k + i) = Ok a).
    { clear Hc. revert l. induction n as [|n IH]; intros l k Hc; simpl in Hc.
      - injection Hc as <-. split; [reflexivity|]. intros [|i] a; discriminate.
      - destruct (f k) as [a| | |] eqn:Ef; try discriminate. simpl in Hc.
        destruct (collect_all f (seq (S k) n)) as [l'| | |] eqn:El; try discriminate. simpl in Hc. injection Hc as <-.
        destruct (IH l' (S k) El) as [Hl Hf]. split; [simpl; lia|].
        intros [|i] a' Ha; simpl in Ha; [injection Ha as <-; now rewrite Nat.add_0_r|].
        rewrite <- (Hf i a' Ha). f_equal. lia. }
    apply (H 0 Hc).
  - intros [Hl Hf].
    assert (Hall : forall i, In i (seq 0 n) -> exists a, nth_error l i = Some a /\ f i = Ok a).
    { intros i Hi. apply in_seq in Hi. destruct (nth_error l i) as [a|] eqn:E; [eauto|].
      apply nth_error_None in E. lia. }
    rewrite par_run_ok.
    + simpl. destruct l as [|d l'] eqn:El.
      { simpl in Hl. subst n. reflexivity. }
      rewrite <- El in *. clear El.
      rewrite (collect_all_ok f (fun i => nth i l d)).
      * f_equal. apply nth_ext with d d; rewrite map_length, seq_length; [lia|].
        intros i Hi. rewrite (nth_indep _ d (nth 0 l d)) by now rewrite map_length, seq_length.
        rewrite map_nth with (f := fun i => nth i l d). rewrite seq_nth by lia. reflexivity.
      * intros i Hi. destruct (Hall i Hi) as (a & Ha & ->). f_equal. symmetry. now apply nth_error_nth.
    + intros i Hi. apply (Permutation_in _ HP) in Hi. destruct (Hall i Hi) as (a & _ & ->). eauto.
Qed.

Lemma par_run_fail {A} (f : nat -> res A) sched :
  (exists i, In i sched /\ forall a, f i <> Ok a) ->
  exists i, In i sched /\ (forall a, f i <> Ok a) /\
    match f i with Ok _ => False | Err e => par_run f sched = Err e | Panic => par_run f sched = Panic | Diverge => par_run f sched = Diverge end.
Proof.
  induction sched as [|i sched IH]; intros (j & Hj & Hf); [easy|]. simpl.
  destruct (f i) as [a|e| |] eqn:E.
  - destruct Hj as [->|Hj]; [exfalso; exact (Hf a E)|].
    destruct IH as (k & Hk & Hfk & Hr); [eauto|]. exists k. split; [now right|]. split; [exact Hfk|]. exact Hr.
  - exists i. split; [now left|]. rewrite E. split; [discriminate|reflexivity].
  - exists i. split; [now left|]. rewrite E. split; [discriminate|reflexivity].
  - exists i. split; [now left|]. rewrite E. split; [discriminate|reflexivity].
Qed.

Lemma par_collect_err {A} (f : nat -> res A) n sched : Permutation sched (seq 0 n) ->
  (forall i, i < n -> f i <> Panic /\ f i <> Diverge) ->
  (exists i e, i < n /\ f i = Err e) ->
  exists i e, i < n /\ f i = Err e /\ par_collect f n sched = Err e.
Proof.
  intros HP Hn (i & e & Hi & He).
  destruct (@par_run_fail A f sched) as (k & Hk & Hf & Hr).
  - exists i. split; [apply (Permutation_in _ (Permutation_sym HP)); apply in_seq; lia|]. rewrite He. discriminate.
  - apply (Permutation_in _ HP), in_seq in Hk. destruct (Hn k) as [H1 H2]; [lia|].
    destruct (f k) as [a|e'| |] eqn:E; try contradiction; try congruence.
    exists k, e'. split; [lia|]. split; [exact E|]. unfold par_collect. now rewrite Hr.
Qed.
