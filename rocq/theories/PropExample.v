(** C80: special tokens around a text; the example of the Python class. *)
From Coq Require Import Permutation.
From Coq.Strings Require Import String.
From Verif Require Import Base BaseProofs F64 Utf8 SpecUtf8 SpecJson Trie Model SpecModel Processor Tokenizer SpecTokenizer Serde Regex Py PyKw SpecPyKw PyExample SpecExample
  Utf8Proofs ProcessorProofs TokenizerProofs TokenizerFacts PropModel PropTokenizer PropPy PropPyKw.
Set Implicit Arguments.
Local Open Scope list_scope.
Local Notation length := List.length.
Local Ltac splits := repeat match goal with |- _ /\ _ => split end.

(** ** Pieces of a framed text *)
Lemma frame_pieces specials o text c : NoDup specials -> Framed specials o text c ->
  exists k k', nth_error specials k = Some o /\ nth_error specials k' = Some c /\ Pieces specials (o ++ text ++ c) [Special k; Plain text; Special k'].
Proof.
  intros ND (Ho & Hc & Neo & Net & Nec & Honly). destruct (In_nth_error _ _ Ho) as (k & Hk). destruct (In_nth_error _ _ Hc) as (k' & Hk').
  assert (Same : forall i j sp, i < j -> nth_error specials i = Some sp -> nth_error specials j = Some sp -> False).
  { intros i j sp Hlt Hi Hj. assert (i = j); [|lia]. apply (proj1 (NoDup_nth_error specials) ND); [apply nth_error_Some; congruence|congruence]. }
  assert (Atc : special_at specials c k').
  { split; [exists c; split; [exact Hk'|exists []; now rewrite app_nil_r]|]. intros j sp Hj Hsp (r & Er).
    destruct (Honly sp (o ++ text) r (nth_error_In _ _ Hsp)) as [[E _]|[_ ->]]; [rewrite Er, <- !app_assoc; reflexivity|destruct o; [congruence|discriminate]|eauto]. }
  exists k, k'. splits; auto. apply Pieces_special; auto.
  - destruct o; [congruence|discriminate].
  - split; [exists o; split; [exact Hk|now exists (text ++ c)]|]. intros j sp Hj Hsp (r & Er).
    destruct (Honly sp [] r (nth_error_In _ _ Hsp) Er) as [[_ ->]|[E _]]; [eauto|destruct o; [congruence|discriminate]].
  - apply Pieces_plain; auto.
    + intros a b -> Hb sp Hsp (r & Er). destruct (Honly sp (o ++ a) r Hsp) as [[E _]|[E _]].
      * rewrite <- !app_assoc. f_equal. f_equal. exact Er.
      * destruct o; [congruence|discriminate].
      * apply app_inv_head in E. rewrite <- (app_nil_r a) in E at 1. apply app_inv_head in E. congruence.
    + right. now exists k'.
    + rewrite <- (app_nil_r c). apply Pieces_special; auto; [now rewrite app_nil_r|now rewrite app_nil_r|constructor].
Qed.
Lemma plain_pieces specials text : text <> [] -> (forall sp, In sp specials -> ~ Inside sp text) -> Pieces specials text [Plain text].
Proof.
  intros Hne H. rewrite <- (app_nil_r text) at 1. apply Pieces_plain; auto; [|constructor]. intros a b -> Hb sp Hsp (r & Er). apply (H sp Hsp). exists a, r. rewrite <- Er, app_nil_r. reflexivity.
Qed.

(** ** C80: texts between special tokens *)
Theorem C80_framed : forall normalize vocab ps sps fuel rnd o text c dropout ids,
  keeps_utf8 normalize -> tok_fits vocab sps -> Utf8 (o ++ text ++ c) -> length (o ++ text ++ c) < fuel -> Framed (first_occurrences sps) o text c ->
  let t := tok_new (model_from vocab) ps sps in
  tok_encode normalize fuel t rnd (o ++ text ++ c) dropout = Ok ids <->
  exists first inner last, special_token_to_id t o = Some first /\ encode_ordinary normalize t (rnd 1) text dropout = Ok inner /\ special_token_to_id t c = Some last /\
    ids = first :: inner ++ [last].
Proof.
  intros normalize vocab ps sps fuel rnd o text c d ids Hn Hok Hu Hf Hfr t. destruct (frame_pieces (first_occurrences_NoDup sps) Hfr) as (k & k' & Hk & Hk' & HP).
  assert (Hid : forall x n, nth_error (first_occurrences sps) n = Some x -> special_token_to_id t x = Some (N.of_nat (length vocab + n))).
  { intros x n Hx. apply (C13_base_special ps (N.of_nat (length vocab + n)) x (ST [] f0 false) Hok). eauto. }
  unfold t. rewrite (C09_encode_by_pieces ps rnd d ids Hn Hok Hu Hf HP). fold t. rewrite (Hid o k Hk), (Hid c k' Hk'). split.
  - intros (parts & -> & Hl & Hp). destruct parts as [|p1 [|p2 [|p3 [|]]]]; try discriminate Hl.
    assert (H1 := Hp 0 _ _ eq_refl eq_refl). assert (H2 := Hp 1 _ _ eq_refl eq_refl). assert (H3 := Hp 2 _ _ eq_refl eq_refl). cbv beta iota in H1, H2, H3. subst p1 p3.
    eexists _, p2, _. splits; [reflexivity|exact H2|reflexivity|reflexivity].
  - intros (f & inner & l & E1 & E2 & E3 & ->). injection E1 as <-. injection E3 as <-. exists [[N.of_nat (length vocab + k)]; inner; [N.of_nat (length vocab + k')]]. splits; auto.
    intros [|[|[|i]]] pc part Hpc Hpart; cbn in Hpc, Hpart; try (destruct i; discriminate); injection Hpc as <-; injection Hpart as <-; auto.
Qed.
Theorem C80_framed_decode : forall normalize vocab ps sps fuel rnd o text c dropout ids incl,
  keeps_utf8 normalize -> tok_fits vocab sps -> Utf8 (o ++ text ++ c) -> length (o ++ text ++ c) < fuel -> Framed (first_occurrences sps) o text c ->
  let t := tok_new (model_from vocab) ps sps in
  tok_encode normalize fuel t rnd (o ++ text ++ c) dropout = Ok ids ->
  tok_decode t ids incl = Ok (if incl then o ++ preprocess_all normalize ps text ++ c else preprocess_all normalize ps text).
Proof.
  intros normalize vocab ps sps fuel rnd o text c d ids incl Hn Hok Hu Hf Hfr t He. destruct (frame_pieces (first_occurrences_NoDup sps) Hfr) as (k & k' & Hk & Hk' & HP).
  unfold t. rewrite (C08_round_trip ps rnd d incl Hn Hok Hu Hf HP He). cbn [map List.concat]. rewrite (nth_error_nth _ _ _ Hk), (nth_error_nth _ _ _ Hk'). destruct incl; cbn [app]; now rewrite app_nil_r.
Qed.

(** ** ASCII texts *)
Definition ascii (s : bytes) : Prop := Forall (fun b => (bN b < 128)%N) s.
Lemma ascii_Utf8 s : ascii s -> Utf8 s.
Proof.
  intros H. replace s with (map byte_of_N (map bN s)); [apply ascii_text; now apply Forall_map|]. rewrite map_map. rewrite <- (map_id s) at 2. apply map_ext. intros b. destruct b; reflexivity.
Qed.
Lemma crlf_none s : ~ In x0d s -> str_replace s [x0d; x0a] [x0a] = s.
Proof.
  intros H. eapply CrDropped_fun; [apply crlf_spec|]. induction s as [|b s IH]; constructor; [intros [-> _]; apply H; now left|apply IH; intros H'; apply H; now right].
Qed.
Lemma pre_ascii normalize ps s : (forall f s, ascii s -> normalize f s = s) -> ascii s -> ~ In x0d s -> preprocess_all normalize ps s = s.
Proof.
  intros Hn Ha Hr. unfold preprocess_all. induction ps as [|p ps IH]; [reflexivity|]. cbn [fold_left]. replace (preprocess normalize p s) with s; [exact IH|]. destruct p; cbn [preprocess]; [now rewrite crlf_none|now rewrite Hn].
Qed.
(** Where a text occurs. *)
Definition places (s p : bytes) : list nat := filter (fun n => starts_with (skipn n s) p) (seq 0 (S (length s))).
Lemma places_spec s p a b : s = a ++ p ++ b -> In (length a) (places s p) /\ a = firstn (length a) s.
Proof.
  intros ->. split; [|now rewrite firstn_app, Nat.sub_diag, firstn_all, app_nil_r]. apply filter_In. split; [apply in_seq; rewrite app_length; lia|]. rewrite skipn_app, skipn_all, Nat.sub_diag. cbn [app skipn]. apply starts_with_app.
Qed.
Lemma add_more m ps sps more : add_special_tokens (tok_new m ps sps) more = tok_new m ps (sps ++ more).
Proof. unfold tok_new, add_special_tokens. now rewrite fold_left_app. Qed.
Lemma Spells_ascii vocab ids s : Spells vocab ids s -> ascii s -> Forall (fun id => exists t, token_at vocab id t /\ ascii (st_value t)) ids.
Proof. induction 1 as [|id t ids s Ht HS IH]; intros Ha; constructor; apply Forall_app in Ha as [H1 H2]; eauto. Qed.
Lemma Spells_nonempty vocab ids s : Spells vocab ids s -> s <> [] -> ids <> [].
Proof. intros HS Hne ->. inversion HS. congruence. Qed.

Definition hello_world : bytes := B "<s>Hello, world!</s>".
Definition hello_geex : bytes := B "<s>Hello, tokengeex!</s>".

Section Example.
  Variable normalize : unicode_form -> bytes -> bytes.
  Variable fuel : nat.
  Variable rnds : nat -> nat -> nat -> nat -> f64.
  Variable scheds : nat -> nat -> list nat.
  Variable fmt_num : f64 -> bytes.
  Variable num_val : bytes -> option f64.
  Variable write_to : files -> bytes -> bytes -> bool * option bytes.
  Variable vocab : list scored_token.
  Variable ps : list processor.
  Let T sps := tok_new (model_from vocab) ps sps.
  Let ask := ask normalize fuel rnds scheds fmt_num num_val write_to.
  Let show := show normalize fuel rnds scheds fmt_num num_val write_to.

  Hypothesis Hn : keeps_utf8 normalize.
  Hypothesis Hascii : forall f s, ascii s -> normalize f s = s.
  Hypothesis Hfuel : 24 < fuel.
  Hypothesis Hsched : forall line n, Permutation (scheds line n) (seq 0 n).
  Hypothesis Hcov : covers vocab (hello_world ++ hello_geex).
  Hypothesis Hhello : exists t, In t vocab /\ st_value t = B "Hello".

  Lemma ask_ok line w m pos kw k v w' : call_kw normalize fuel (rnds line) (scheds line) fmt_num num_val write_to w m pos kw = (Return v, w') -> ask line w m pos kw k = k v w'.
  Proof. intros H. unfold ask, PyExample.ask. now rewrite H. Qed.

  Section Specials.
    Variable sps : list bytes.
    Hypothesis Hok : tok_fits vocab sps.
    Variable fs : files.
    Let w := World (T sps) fs.

    Lemma id_fits id : (id < N.of_nat (length vocab))%N -> (id < 2 ^ 32)%N.
    Proof. destruct Hok as ((H & _) & _). lia. Qed.
    Lemma get_id_ok id : (id < 2 ^ 32)%N -> get_u32 (of_id id) = Return id.
    Proof.
      intros H. unfold get_u32, get_int, of_id. replace ((0 <=? Z.of_N id)%Z && (Z.of_N id <? 2 ^ 32)%Z) with true; [now rewrite N2Z.id|]. symmetry. apply andb_true_iff. rewrite Z.leb_le, Z.ltb_lt. lia.
    Qed.
    Lemma id_to_token_ok line id k : (id < 2 ^ 32)%N -> ask line w id_to_token_ [of_id id] [] k = k (of_option PyBytes (tok_id_to_token (T sps) id)) w.
    Proof. intros H. apply ask_ok. unfold call_kw. cbn [parameters bind_arguments place option_map map put_all filled]. cbn -[get_u32 of_id T]. rewrite get_id_ok by exact H. reflexivity. Qed.
    Lemma show_spelled line ids k : Forall (fun id => exists t, token_at vocab id t /\ ascii (st_value t)) ids -> show line true w (map of_id ids) k = k w.
    Proof.
      induction 1 as [|id ids (t & Ht & Ha) _ IH]; [reflexivity|]. cbn [map]. change (show line true w (of_id id :: map of_id ids) k) with
        (ask line w id_to_token_ [of_id id] [] (fun v w' => check line match v with PyBytes s => utf8_ok s | _ => false end (show line true w' (map of_id ids) k))).
      rewrite id_to_token_ok.
      - replace (tok_id_to_token (T sps) id) with (Some (st_value t)); [|symmetry; apply C13_id_to_token; eauto]. cbn [of_option]. unfold check. rewrite (proj2 (utf8_ok_spec (st_value t)) (ascii_Utf8 Ha)). exact IH.
      - apply id_fits. assert (N.to_nat id < length vocab) by (apply nth_error_Some; unfold token_at in Ht; congruence). lia.
    Qed.
    Lemma show_any line ids k : Forall (fun id => (id < 2 ^ 32)%N) ids -> show line false w (map of_id ids) k = k w.
    Proof.
      induction 1 as [|id ids Hid _ IH]; [reflexivity|]. cbn [map]. change (show line false w (of_id id :: map of_id ids) k) with
        (ask line w id_to_token_ [of_id id] [] (fun v w' => check line true (show line false w' (map of_id ids) k))).
      rewrite id_to_token_ok by exact Hid. exact IH.
    Qed.
    (** Encoding without special tokens. *)
    Lemma ordinary rnd s d : ascii s -> ~ In x0d s -> covers vocab s -> exists ids, encode_ordinary normalize (T sps) rnd s d = Ok ids /\ Spells vocab ids s.
    Proof.
      intros Ha Hr Hc. destruct (C05_covered_input_encodes rnd d (proj1 Hok) Hc) as (ids & Hids). exists ids. unfold encode_ordinary, T. rewrite tok_new_model, tok_new_processors, pre_ascii by auto.
      split; [exact Hids|]. exact (proj1 (C01_encode_spells rnd s d (proj1 Hok) Hids)).
    Qed.
    Lemma plain rnd s d : s <> [] -> length s < fuel -> (forall sp, In sp sps -> ~ Inside sp s) -> ascii s -> ~ In x0d s -> covers vocab s ->
      exists ids, tok_encode normalize fuel (T sps) rnd s d = Ok ids /\ Spells vocab ids s.
    Proof.
      intros Hne Hl Hno Ha Hr Hc. destruct (ordinary (rnd 0) d Ha Hr Hc) as (ids & Hids & HS). exists ids. split; [|exact HS].
      assert (HP : Pieces (first_occurrences sps) s [Plain s]). { apply plain_pieces; [exact Hne|]. intros sp Hsp. apply Hno. now apply first_occurrences_In. }
      apply (C09_encode_by_pieces ps rnd d ids Hn Hok (ascii_Utf8 Ha) Hl HP). exists [ids]. splits; [cbn; now rewrite app_nil_r|reflexivity|].
      intros [|[|i]] pc part H1 H2; try discriminate. injection H1 as <-. injection H2 as <-. exact Hids.
    Qed.
    Lemma framed rnd o text c d : Framed (first_occurrences sps) o text c -> length (o ++ text ++ c) < fuel -> ascii (o ++ text ++ c) -> ~ In x0d text -> covers vocab text ->
      exists first inner last ids, tok_encode normalize fuel (T sps) rnd (o ++ text ++ c) d = Ok ids /\ special_token_to_id (T sps) o = Some first /\ special_token_to_id (T sps) c = Some last /\
        ids = first :: inner ++ [last] /\ Forall (fun id => (id < 2 ^ 32)%N) ids /\ tok_decode (T sps) ids true = Ok (o ++ text ++ c) /\ tok_decode (T sps) ids false = Ok text.
    Proof.
      intros Hfr Hl Ha Hr Hc. assert (Hat : ascii text). { unfold ascii in Ha. apply Forall_app in Ha as [_ Ha]. now apply Forall_app in Ha. }
      destruct (ordinary (rnd 1) d Hat Hr Hc) as (inner & Hin & HS). assert (Hid : forall x, In x (first_occurrences sps) -> exists id, special_token_to_id (T sps) x = Some id /\ (id < 2 ^ 32)%N).
      { intros x Hx. destruct (In_nth_error _ _ Hx) as (n & En). exists (N.of_nat (length vocab + n)). split.
        - apply (C13_base_special ps (N.of_nat (length vocab + n)) x (ST [] f0 false) Hok). eauto.
        - destruct Hok as (_ & H & _). assert (n < length (first_occurrences sps)) by (apply nth_error_Some; congruence). lia. }
      destruct (Hid o) as (first & Ef & Lf); [apply Hfr|]. destruct (Hid c) as (last & El & Ll); [apply Hfr|]. exists first, inner, last, (first :: inner ++ [last]).
      assert (He : tok_encode normalize fuel (T sps) rnd (o ++ text ++ c) d = Ok (first :: inner ++ [last])).
      { apply (C80_framed ps rnd d _ Hn Hok (ascii_Utf8 Ha) Hl Hfr). exists first, inner, last. auto. }
      splits; auto.
      - constructor; [exact Lf|]. apply Forall_app. split; [|auto]. eapply Forall_impl; [|exact (Spells_lt HS)]. exact id_fits.
      - unfold T. rewrite (C80_framed_decode ps rnd d true Hn Hok (ascii_Utf8 Ha) Hl Hfr He). now rewrite pre_ascii.
      - unfold T. rewrite (C80_framed_decode ps rnd d false Hn Hok (ascii_Utf8 Ha) Hl Hfr He). now rewrite pre_ascii.
    Qed.
    (** The calls. *)
    Let call line := call_kw normalize fuel (rnds line) (scheds line) fmt_num num_val write_to w.
    Lemma call_ordinary line x s d ids : get_str x = Return s -> encode_ordinary normalize (T sps) (rnds line 0 0) s d = Ok ids -> call line encode_ordinary_ [x; PyFloat d] [] = (Return (of_ids ids), w).
    Proof. intros Hx He. change (call line encode_ordinary_ [x; PyFloat d] []) with (read normalize fuel (rnds line) (scheds line) fmt_num (T sps) encode_ordinary_ [x; PyFloat d], w). cbn [read abind get_f64]. now rewrite Hx; cbn [abind]; rewrite He. Qed.
    Lemma call_encode line x s d ids : get_str x = Return s -> tok_encode normalize fuel (T sps) (rnds line 0) s d = Ok ids -> call line encode_ [x; PyFloat d] [] = (Return (of_ids ids), w).
    Proof. intros Hx He. change (call line encode_ [x; PyFloat d] []) with (read normalize fuel (rnds line) (scheds line) fmt_num (T sps) encode_ [x; PyFloat d], w). cbn [read abind get_f64]. now rewrite Hx; cbn [abind]; rewrite He. Qed.
    Lemma call_decode line ids b out : Forall (fun id => (id < 2 ^ 32)%N) ids -> tok_decode (T sps) ids b = Ok out -> call line decode_ [of_ids ids] [(B "include_special_tokens", PyBool b)] = (Return (of_str out), w).
    Proof. intros Hi Hd. change (call line decode_ [of_ids ids] [(B "include_special_tokens", PyBool b)]) with (read normalize fuel (rnds line) (scheds line) fmt_num (T sps) decode_ [of_ids ids; PyBool b], w). cbn [read get_bool]. now rewrite (get_ids Hi); cbn [abind]; rewrite Hd. Qed.
    Lemma call_special line x s id : get_str x = Return s -> special_token_to_id (T sps) s = Some id -> call line special_token_to_id_ [x] [] = (Return (of_id id), w).
    Proof. intros Hx He. change (call line special_token_to_id_ [x] []) with (read normalize fuel (rnds line) (scheds line) fmt_num (T sps) special_token_to_id_ [x], w). cbn [read]. now rewrite Hx; cbn [abind]; rewrite He. Qed.
    Lemma call_size line : call line vocab_size_ [] [] = (Return (PyInt (Z.of_nat (length vocab + length (first_occurrences sps)))), w).
    Proof.
      change (call line vocab_size_ [] []) with (Return (of_size (tok_vocab_size (T sps))), w). unfold T. destruct (C13_partition ps 0%N Hok) as (_ & _ & _ & H1 & H2 & H3). cbv zeta in *. rewrite H3, H1, H2. reflexivity.
    Qed.
    Lemma call_batch line x y s s' d ids ids' : get_str x = Return s -> get_str y = Return s' ->
      tok_encode normalize fuel (T sps) (rnds line 0) s d = Ok ids -> tok_encode normalize fuel (T sps) (rnds line 1) s' d = Ok ids' ->
      call line encode_batch_ [PyList [x; y]; PyFloat d] [] = (Return (PyList [of_ids ids; of_ids ids']), w).
    Proof.
      intros Hx Hy H1 H2. change (call line encode_batch_ [PyList [x; y]; PyFloat d] []) with (read normalize fuel (rnds line) (scheds line) fmt_num (T sps) encode_batch_ [PyList [x; y]; PyFloat d], w).
      cbn [read get_f64 get_vec items get_all abind]. unfold get_vec. cbn [items get_all abind]. rewrite Hx. cbn [abind]. rewrite Hy. cbn [abind].
      replace (encode_batch normalize fuel (T sps) (rnds line) [s; s'] d (scheds line (length [s; s']))) with (@Ok (list (list N)) [ids; ids']); [reflexivity|]. symmetry.
      apply C18_encode_batch_ok; [apply Hsched|]. cbn [length seq]. constructor; [exact H1|]. constructor; [exact H2|constructor].
    Qed.
    Lemma call_ordinary_batch line x y s s' d ids ids' : get_str x = Return s -> get_str y = Return s' ->
      encode_ordinary normalize (T sps) (rnds line 0 0) s d = Ok ids -> encode_ordinary normalize (T sps) (rnds line 1 0) s' d = Ok ids' ->
      call line encode_ordinary_batch_ [PyList [x; y]; PyFloat d] [] = (Return (PyList [of_ids ids; of_ids ids']), w).
    Proof.
      intros Hx Hy H1 H2. change (call line encode_ordinary_batch_ [PyList [x; y]; PyFloat d] []) with (read normalize fuel (rnds line) (scheds line) fmt_num (T sps) encode_ordinary_batch_ [PyList [x; y]; PyFloat d], w).
      cbn [read get_f64 get_vec items get_all abind]. unfold get_vec. cbn [items get_all abind]. rewrite Hx. cbn [abind]. rewrite Hy. cbn [abind].
      replace (encode_ordinary_batch normalize (T sps) (fun i => rnds line i 0) [s; s'] d (scheds line (length [s; s']))) with (@Ok (list (list N)) [ids; ids']); [reflexivity|]. symmetry.
      apply C18_encode_ordinary_batch_ok; [apply Hsched|]. cbn [length seq]. constructor; [exact H1|]. constructor; [exact H2|constructor].
    Qed.
    Lemma call_decode_batch line ids ids' b out out' : Forall (fun id => (id < 2 ^ 32)%N) ids -> Forall (fun id => (id < 2 ^ 32)%N) ids' ->
      tok_decode (T sps) ids b = Ok out -> tok_decode (T sps) ids' b = Ok out' ->
      call line decode_batch_ [PyList [of_ids ids; of_ids ids']] [(B "include_special_tokens", PyBool b)] = (Return (PyList [of_str out; of_str out']), w).
    Proof.
      intros Hi Hi' H1 H2. change (call line decode_batch_ [PyList [of_ids ids; of_ids ids']] [(B "include_special_tokens", PyBool b)]) with
        (read normalize fuel (rnds line) (scheds line) fmt_num (T sps) decode_batch_ [PyList [of_ids ids; of_ids ids']; PyBool b], w).
      cbn [read get_bool]. assert (E : get_vec (get_vec get_u32) (PyList [of_ids ids; of_ids ids']) = Return [ids; ids']).
      { unfold get_vec at 1. cbn [items get_all abind]. rewrite (get_ids Hi), (get_ids Hi'). reflexivity. }
      rewrite E. cbn [abind]. replace (decode_batch (T sps) [ids; ids'] b (scheds line (length [ids; ids']))) with (@Ok (list bytes) [out; out']); [reflexivity|]. symmetry.
      apply C18_decode_batch_ok; [apply Hsched|]. cbn [length seq]. constructor; [exact H1|]. constructor; [exact H2|constructor].
    Qed.
    Lemma special_beyond s id : special_token_to_id (T sps) s = Some id -> (N.of_nat (length vocab) <= id < 2 ^ 32)%N.
    Proof.
      intros H. apply (C13_base_special ps id s (ST [] f0 false) Hok) in H as (k & -> & Hk). destruct Hok as (_ & H & _). assert (k < length (first_occurrences sps)) by (apply nth_error_Some; congruence). lia.
    Qed.
  End Specials.
  Lemma last_item_ids l x : last_item (of_ids (l ++ [x])) = Some (of_id x).
  Proof. unfold last_item, of_ids. now rewrite map_app, rev_app_distr. Qed.
  Lemma differ a b n : (a < n)%N -> (n <= b)%N -> negb (py_eqb (of_id a) (of_id b)) = true.
  Proof. intros H1 H2. cbn [of_id py_eqb]. apply negb_true_iff, Z.eqb_neq. lia. Qed.
  Lemma py_same a : py_eqb (of_id a) (of_id a) = true.
  Proof. apply Z.eqb_refl. Qed.

  Lemma covers_part a s b : hello_world ++ hello_geex = a ++ s ++ b -> covers vocab s.
  Proof. intros E. unfold covers in *. rewrite E in Hcov. apply Forall_app in Hcov as [_ H]. now apply Forall_app in H. Qed.
  (** The four special tokens in the sentences. *)
  Lemma example_framed sps text whole : whole = B "<s>" ++ text ++ B "</s>" -> text <> [] ->
    (forall sp, In sp sps -> In sp (map B four) \/ ~ Inside sp whole) ->
    places whole (B "<s>") = [0] -> places whole (B "</s>") = [length (B "<s>" ++ text)] -> places whole (B "<pad>") = [] -> places whole (B "<unk>") = [] ->
    Framed (first_occurrences (sps ++ map B four)) (B "<s>") text (B "</s>").
  Proof.
    intros -> Hne Hsps P1 P2 P3 P4. unfold Framed. rewrite !first_occurrences_In, !in_app_iff. splits; try discriminate; [right; cbn; auto|right; cbn; auto|exact Hne|].
    intros sp a b Hsp E. rewrite first_occurrences_In, in_app_iff in Hsp. assert (Hin : In sp (map B four)).
    { destruct Hsp as [Hsp|Hsp]; [|exact Hsp]. destruct (Hsps sp Hsp) as [H|H]; [exact H|]. exfalso. apply H. now exists a, b. }
    destruct (@places_spec _ sp a b E) as [Hp Ha]. cbn [four map In] in Hin. destruct Hin as [<-|[<-|[<-|[<-|[]]]]].
    - rewrite P1 in Hp. destruct Hp as [Hp|[]]. left. split; [destruct a; [reflexivity|discriminate]|reflexivity].
    - rewrite P2 in Hp. destruct Hp as [Hp|[]]. right. split; [|reflexivity]. rewrite Ha, <- Hp, app_assoc, firstn_app, firstn_all, Nat.sub_diag. now rewrite app_nil_r.
    - rewrite P3 in Hp. destruct Hp.
    - rewrite P4 in Hp. destruct Hp.
  Qed.
  Local Ltac step t := etransitivity; [eapply ask_ok; t|]; cbv beta.
  Lemma example_run sps fs : tok_fits vocab (sps ++ map B four) -> (forall sp, In sp sps -> In sp (map B four) \/ ~ Inside sp hello_world /\ ~ Inside sp hello_geex) ->
    exists w', w_tok w' = T (sps ++ map B four) /\
      example_from normalize fuel rnds scheds fmt_num num_val write_to (World (T sps) fs) =
      if length (first_occurrences (sps ++ map B four)) =? length (first_occurrences sps) + 4 then Finished w' else Failed 49.
  Proof.
    intros Hok Hsps. assert (Hok0 : tok_fits vocab sps).
    { destruct Hok as (H1 & H2 & H3). split; [exact H1|]. split; [|now apply Forall_app in H3]. rewrite (proj2 (C14_registered vocab ps sps (map B four))), app_length in H2. lia. }
    set (all := sps ++ map B four) in *. set (path := B "/dev/null").
    exists (World (T all) (fun p => if bytes_eqb p path then snd (write_to fs path (save_contents fmt_num (T all))) else fs p)). split; [reflexivity|].
    (* the texts *)
    assert (A1 : ascii (B "Hello, world!")) by (repeat constructor). assert (A2 : ascii hello_world) by (repeat constructor). assert (A3 : ascii hello_geex) by (repeat constructor).
    assert (N1 : ~ In x0d (B "Hello, world!")) by (cbn; intuition discriminate). assert (N2 : ~ In x0d hello_world) by (cbn; intuition discriminate). assert (N3 : ~ In x0d hello_geex) by (cbn; intuition discriminate).
    assert (N4 : ~ In x0d (B "Hello, tokengeex!")) by (cbn; intuition discriminate).
    assert (C1 : covers vocab (B "Hello, world!")) by (now apply (@covers_part (B "<s>") (B "Hello, world!") (B "</s>" ++ hello_geex))).
    assert (C2 : covers vocab hello_world) by (now apply (@covers_part [] hello_world hello_geex)).
    assert (C3 : covers vocab hello_geex) by (now apply (@covers_part hello_world hello_geex [])).
    assert (C4 : covers vocab (B "Hello, tokengeex!")) by (now apply (@covers_part (hello_world ++ B "<s>") (B "Hello, tokengeex!") (B "</s>"))).
    assert (G1 : get_str (lit "Hello, world!") = Return (B "Hello, world!")) by (vm_compute; reflexivity).
    assert (G2 : get_str (lit "<s>Hello, world!</s>") = Return hello_world) by (vm_compute; reflexivity).
    assert (G3 : get_str (lit "<s>Hello, tokengeex!</s>") = Return hello_geex) by (vm_compute; reflexivity).
    assert (G4 : get_str (lit "<s>") = Return (B "<s>")) by (vm_compute; reflexivity).
    assert (G5 : get_str (lit "</s>") = Return (B "</s>")) by (vm_compute; reflexivity).
    assert (F1 : Framed (first_occurrences all) (B "<s>") (B "Hello, world!") (B "</s>")).
    { apply (@example_framed sps (B "Hello, world!") hello_world); try (vm_compute; reflexivity); [discriminate|]. intros sp Hsp. destruct (Hsps sp Hsp) as [H|[H _]]; auto. }
    assert (F2 : Framed (first_occurrences all) (B "<s>") (B "Hello, tokengeex!") (B "</s>")).
    { apply (@example_framed sps (B "Hello, tokengeex!") hello_geex); try (vm_compute; reflexivity); [discriminate|]. intros sp Hsp. destruct (Hsps sp Hsp) as [H|[_ H]]; auto. }
    assert (L0 : length (B "Hello, world!") < fuel) by (cbn; lia). assert (L1 : length (B "<s>" ++ B "Hello, world!" ++ B "</s>") < fuel) by (cbn; lia). assert (L2 : length (B "<s>" ++ B "Hello, tokengeex!" ++ B "</s>") < fuel) by (cbn; lia).
    assert (I1 : forall sp, In sp sps -> ~ Inside sp (B "Hello, world!")).
    { intros sp Hsp (a & b & E). destruct (Hsps sp Hsp) as [H|[H _]].
      - destruct (@places_spec _ sp a b E) as [Hp _]. cbn [four map In] in H. destruct H as [<-|[<-|[<-|[<-|[]]]]]; vm_compute in Hp; exact Hp.
      - apply H. exists (B "<s>" ++ a), (b ++ B "</s>"). change hello_world with (B "<s>" ++ B "Hello, world!" ++ B "</s>"). rewrite E, <- !app_assoc. reflexivity. }
    unfold example_from. cbv zeta.
    destruct (@ordinary sps Hok0 (rnds 8 0 0) (B "Hello, world!") f0 A1 N1 C1) as (ids1 & E1 & S1). step ltac:(exact (@call_ordinary sps fs 8 (lit "Hello, world!") (B "Hello, world!") f0 ids1 G1 E1)).
    etransitivity; [exact (@show_spelled sps Hok0 fs 9 ids1 _ (@Spells_ascii vocab ids1 _ S1 A1))|]. cbv beta.
    destruct (@plain sps Hok0 (rnds 12 0) (B "Hello, world!") fhalf ltac:(discriminate) L0 I1 A1 N1 C1) as (ids2 & E2 & S2). step ltac:(exact (@call_encode sps fs 12 (lit "Hello, world!") (B "Hello, world!") fhalf ids2 G1 E2)).
    etransitivity; [exact (@show_spelled sps Hok0 fs 13 ids2 _ (@Spells_ascii vocab ids2 _ S2 A1))|]. cbv beta.
    assert (B2 : Forall (fun id => (id < 2 ^ 32)%N) ids2) by (eapply Forall_impl; [exact (id_fits Hok0 fs)|exact (Spells_lt S2)]).
    destruct (C11_decode_total ps ids2 false Hok0) as [(out & Eo)|(id & Eo)].
    2:{ exfalso. apply (C11_decode_error ps ids2 false (TokenIdOutOfBounds id) Hok0) in Eo as (id' & _ & a & b & -> & _ & Hb). assert (H := Spells_lt S2). apply Forall_app in H as [_ H]. inversion H as [|? ? H' _]; subst. lia. }
    step ltac:(exact (@call_decode sps fs 16 ids2 false out B2 Eo)).
    assert (Hid : exists id, base_token_to_id (T sps) (B "Hello") = Some id /\ (id < 2 ^ 32)%N).
    { destruct Hhello as (t & Ht & Hv). destruct (In_nth_error _ _ Ht) as (n & En). destruct (base_token_to_id (T sps) (B "Hello")) as [id|] eqn:E.
      - exists id. split; [reflexivity|]. apply (C13_base_special ps id (B "Hello") t Hok0) in E as (tk & [Htk _] & _). apply (id_fits Hok0 fs). assert (N.to_nat id < length vocab) by (apply nth_error_Some; unfold token_at in Htk; congruence). lia.
      - exfalso. destruct (@EncodeProofs.latest_exists vocab t Ht) as (id & t' & Hl & Hv'). assert (H : base_token_to_id (T sps) (B "Hello") = Some id); [|congruence]. apply (C13_base_special ps id (B "Hello") t Hok0). exists t'. split; [exact Hl|congruence]. }
    destruct Hid as (hid & Eh & Bh).
    assert (Ch : forall line, call_kw normalize fuel (rnds line) (scheds line) fmt_num num_val write_to (World (T sps) fs) base_token_to_id_ [PyBytes (B "Hello")] [] = (Return (of_id hid), World (T sps) fs)).
    { intros line. change (call_kw normalize fuel (rnds line) (scheds line) fmt_num num_val write_to (World (T sps) fs) base_token_to_id_ [PyBytes (B "Hello")] []) with
        (token <~ get_vec get_u8 (PyBytes (B "Hello")) ;; Return (of_option of_id (base_token_to_id (T sps) token)), World (T sps) fs).
      replace (get_vec get_u8 (PyBytes (B "Hello"))) with (Return (B "Hello")) by (vm_compute; reflexivity). cbn [abind]. now rewrite Eh. }
    step ltac:(apply Ch). unfold check at 1. cbn [is_none of_id negb].
    assert (Cb : forall line w m v, w = World (T sps) fs -> m = id_to_base_token_ -> v = of_id hid -> exists r, call_kw normalize fuel (rnds line) (scheds line) fmt_num num_val write_to w m [v] [] = (Return r, World (T sps) fs)).
    { intros line w m v -> -> ->. change (call_kw normalize fuel (rnds line) (scheds line) fmt_num num_val write_to (World (T sps) fs) id_to_base_token_ [of_id hid] []) with
        (id <~ get_u32 (of_id hid) ;; Return (of_option (fun tk => PyTuple [PyBytes (st_value tk); PyFloat (st_score tk)]) (id_to_base_token (T sps) id)), World (T sps) fs).
      rewrite (get_id_ok sps fs Bh). eexists. reflexivity. }
    destruct (Cb 24 _ _ _ eq_refl eq_refl eq_refl) as (r24 & E24). step ltac:(exact E24).
    step ltac:(apply (@call_size sps Hok0 fs 27)).
    assert (C32 : call_kw normalize fuel (rnds 32) (scheds 32) fmt_num num_val write_to (World (T sps) fs) add_special_tokens_ [PyList (map lit four)] [] = (Return PyNone, World (T all) fs)).
    { change (call_kw normalize fuel (rnds 32) (scheds 32) fmt_num num_val write_to (World (T sps) fs) add_special_tokens_ [PyList (map lit four)] []) with
        (match get_vec get_str (PyList (map lit four)) with Return tokens => (@Return py PyNone, World (add_special_tokens (T sps) tokens) fs) | Raise e => (Raise e, World (T sps) fs) | Hang => (Hang, World (T sps) fs) end).
      replace (get_vec get_str (PyList (map lit four))) with (Return (map B four)) by (vm_compute; reflexivity). unfold T, all. now rewrite add_more. }
    step ltac:(exact C32). step ltac:(reflexivity).
    destruct (@framed all Hok fs (rnds 40 0) _ _ _ f0 F1 L1 A2 N1 C1) as (sid & inner & eid & ids3 & E3 & Esid & Eeid & Eids & B3 & D3 & D3'). change (B "<s>" ++ B "Hello, world!" ++ B "</s>") with hello_world in *.
    step ltac:(exact (@call_special all fs 35 (lit "<s>") (B "<s>") sid G4 Esid)). unfold check at 1. cbn [is_none of_id negb].
    step ltac:(exact (@call_encode all fs 40 (lit "<s>Hello, world!</s>") hello_world f0 ids3 G2 E3)). subst ids3. change (first_item (of_ids (sid :: inner ++ [eid]))) with (Some (of_id sid)). change (sid :: inner ++ [eid]) with ((sid :: inner) ++ [eid]). rewrite last_item_ids. cbv beta iota.
    unfold check at 1. change (PyInt (Z.of_N sid)) with (of_id sid). rewrite py_same. step ltac:(exact (@call_special all fs 41 (lit "</s>") (B "</s>") eid G5 Eeid)). unfold check at 1. rewrite py_same.
    destruct (@ordinary all Hok (rnds 44 0 0) hello_world f0 A2 N2 C2) as (ids4 & E4 & S4). step ltac:(exact (@call_ordinary all fs 44 (lit "<s>Hello, world!</s>") hello_world f0 ids4 G2 E4)).
    assert (B4 := Spells_lt S4). assert (Ne4 := Spells_nonempty S4 ltac:(discriminate)). destruct (exists_last Ne4) as (pre4 & last4 & Ep). destruct ids4 as [|first4 ids4]; [congruence|].
    change (first_item (of_ids (first4 :: ids4))) with (Some (of_id first4)). assert (Bf : (first4 < N.of_nat (length vocab))%N) by now inversion B4. assert (Bl : (last4 < N.of_nat (length vocab))%N) by (rewrite Ep in B4; apply Forall_app in B4 as [_ H]; now inversion H).
    rewrite Ep, last_item_ids. cbv beta iota. destruct (special_beyond Hok fs _ Esid) as [Ls Ls']. destruct (special_beyond Hok fs _ Eeid) as [Le Le'].
    unfold check at 1. rewrite (differ Bf Ls). step ltac:(exact (@call_special all fs 45 (lit "</s>") (B "</s>") eid G5 Eeid)). unfold check at 1. rewrite (differ Bl Le).
    step ltac:(apply (@call_size all Hok fs 48)). unfold check at 1. cbn [minus py_eqb].
    replace (Z.of_nat (length vocab + length (first_occurrences sps)) =? Z.of_nat (length vocab + length (first_occurrences all)) - Z.of_nat (List.length four))%Z with
      (length (first_occurrences all) =? length (first_occurrences sps) + 4).
    2:{ cbn [four List.length]. destruct (Nat.eqb_spec (length (first_occurrences all)) (length (first_occurrences sps) + 4)) as [H|H]; symmetry; [apply Z.eqb_eq; lia|apply Z.eqb_neq; lia]. }
    destruct (length (first_occurrences all) =? length (first_occurrences sps) + 4); [|reflexivity].
    assert (C52 : exists r, call_kw normalize fuel (rnds 52) (scheds 52) fmt_num num_val write_to (World (T all) fs) id_to_special_token_ [of_id sid] [] = (Return r, World (T all) fs)).
    { change (call_kw normalize fuel (rnds 52) (scheds 52) fmt_num num_val write_to (World (T all) fs) id_to_special_token_ [of_id sid] []) with
        (id <~ get_u32 (of_id sid) ;; Return (of_option of_str (id_to_special_token (T all) id)), World (T all) fs). rewrite (get_id_ok all fs Ls'). eexists. reflexivity. }
    destruct C52 as (r52 & C52). step ltac:(exact C52).
    destruct (@framed all Hok fs (rnds 57 0) _ _ _ f0 F1 L1 A2 N1 C1) as (a1 & a2 & a3 & ida & Ea & _ & _ & _ & Ba & Da & Da').
    destruct (@framed all Hok fs (rnds 57 1) _ _ _ f0 F2 L2 A3 N4 C4) as (b1 & b2 & b3 & idb & Eb & _ & _ & _ & Bb & Db & Db').
    step ltac:(exact (@call_batch all fs 57 (lit "<s>Hello, world!</s>") (lit "<s>Hello, tokengeex!</s>") hello_world hello_geex f0 ida idb G2 G3 Ea Eb)). step ltac:(exact (@call_decode_batch all fs 60 ida idb true _ _ Ba Bb Da Db)).
    unfold check at 1. match goal with |- (if ?c then _ else _) = _ => replace c with true by (vm_compute; reflexivity) end.
    step ltac:(exact (@call_decode_batch all fs 64 ida idb false _ _ Ba Bb Da' Db')).
    unfold check at 1. match goal with |- (if ?c then _ else _) = _ => replace c with true by (vm_compute; reflexivity) end.
    destruct (@ordinary all Hok (rnds 68 0 0) hello_world f0 A2 N2 C2) as (ids5 & E5 & _). destruct (@ordinary all Hok (rnds 68 1 0) hello_geex f0 A3 N3 C3) as (ids6 & E6 & _).
    step ltac:(exact (@call_ordinary_batch all fs 68 (lit "<s>Hello, world!</s>") (lit "<s>Hello, tokengeex!</s>") hello_world hello_geex f0 ids5 ids6 G2 G3 E5 E6)).
    assert (C72 : call_kw normalize fuel (rnds 72) (scheds 72) fmt_num num_val write_to (World (T all) fs) common_prefix_search_ [lit "self.dropout"] [] =
      (Return (of_ids (map fst (common_prefix_search (model_from vocab) (B "self.dropout")))), World (T all) fs)).
    { change (call_kw normalize fuel (rnds 72) (scheds 72) fmt_num num_val write_to (World (T all) fs) common_prefix_search_ [lit "self.dropout"] []) with
        (text <~ get_str (lit "self.dropout") ;; Return (of_ids (map fst (common_prefix_search (tk_model (T all)) text))), World (T all) fs).
      replace (get_str (lit "self.dropout")) with (Return (B "self.dropout")) by (vm_compute; reflexivity). cbn [abind]. unfold T. now rewrite tok_new_model. }
    step ltac:(exact C72). etransitivity; [eapply (@show_any all fs 73)|].
    { apply Forall_map. apply Forall_forall. intros (id & len) Hin. destruct (proj1 (C17_search_sound_complete _ id len (proj1 Hok)) Hin) as (t & r & [Ht _] & _). cbn [fst].
      apply (id_fits Hok fs). assert (N.to_nat id < length vocab) by (apply nth_error_Some; unfold token_at in Ht; congruence). lia. }
    cbv beta. step ltac:(idtac).
    { change (call_kw normalize fuel (rnds 76) (scheds 76) fmt_num num_val write_to (World (T all) fs) save_ [lit "/dev/null"] []) with
        (match get_str (lit "/dev/null") with
         | Return p0 => let '(ok, file) := write_to fs p0 (save_contents fmt_num (T all)) in (@Return py PyNone, World (T all) (fun p => if bytes_eqb p p0 then file else fs p))
         | Raise e => (Raise e, World (T all) fs) | Hang => (Hang, World (T all) fs) end).
      replace (get_str (lit "/dev/null")) with (Return path) by (vm_compute; reflexivity). cbv iota.
      transitivity (@Return py PyNone, World (T all) (fun p => if bytes_eqb p path then snd (write_to fs path (save_contents fmt_num (T all))) else fs p)); [|reflexivity].
      destruct (write_to fs path (save_contents fmt_num (T all))) as [ok file]. reflexivity. }
    reflexivity.
  Qed.
End Example.
Lemma four_new sps : length (first_occurrences (sps ++ map B four)) = length (first_occurrences sps) + 4 <-> forall sp, In sp sps -> ~ In sp (map B four).
Proof.
  rewrite (proj2 (C14_registered [] [] sps (map B four))), app_length. replace (first_occurrences (map B four)) with (map B four) by (vm_compute; reflexivity).
  generalize (length (first_occurrences sps)). intros n. cbn [four map filter].
  destruct (in_dec (list_eq_dec Byte.byte_eq_dec) (B "<s>") sps) as [H1|H1], (in_dec (list_eq_dec Byte.byte_eq_dec) (B "</s>") sps) as [H2|H2], (in_dec (list_eq_dec Byte.byte_eq_dec) (B "<pad>") sps) as [H3|H3],
    (in_dec (list_eq_dec Byte.byte_eq_dec) (B "<unk>") sps) as [H4|H4]; cbn [List.length];
    first [split; [lia|intros H; exfalso; first [eapply H; [exact H1|cbn; auto]|eapply H; [exact H2|cbn; auto]|eapply H; [exact H3|cbn; auto]|eapply H; [exact H4|cbn; auto]]]
          |split; [intros _ sp Hsp [<-|[<-|[<-|[<-|[]]]]]; contradiction|lia]].
Qed.

(** ** C80: the example *)
Theorem C80_example : forall normalize fuel rnds scheds fmt_num num_val write_to vocab ps sps fs,
  keeps_utf8 normalize -> (forall f s, ascii s -> normalize f s = s) -> 24 < fuel -> (forall line n, Permutation (scheds line n) (seq 0 n)) ->
  from_file num_val (fs (B "./hub/vocab/v2/exact-32k-merged.json")) = Ok (tok_new (model_from vocab) ps sps) -> tok_fits vocab (sps ++ map B four) ->
  covers vocab (hello_world ++ hello_geex) -> (exists t, In t vocab /\ st_value t = B "Hello") ->
  (forall sp, In sp sps -> In sp (map B four) \/ ~ Inside sp hello_world /\ ~ Inside sp hello_geex) ->
  let run := example normalize fuel rnds scheds fmt_num num_val write_to fs in
  ((forall sp, In sp sps -> ~ In sp (map B four)) -> exists w, run = Finished w /\ w_tok w = tok_new (model_from vocab) ps (sps ++ map B four)) /\
  ((exists sp, In sp sps /\ In sp (map B four)) -> run = Failed 49).
Proof.
  intros normalize fuel rnds scheds fmt_num num_val write_to vocab ps sps fs Hn Ha Hf Hs Hfile Hok Hc Hh Hsps run.
  assert (Er : run = example_from normalize fuel rnds scheds fmt_num num_val write_to (World (tok_new (model_from vocab) ps sps) fs)).
  { unfold run, example. change (from_file_kw num_val fs [lit "./hub/vocab/v2/exact-32k-merged.json"] []) with
      (path <~ get_str (lit "./hub/vocab/v2/exact-32k-merged.json") ;; raise_err (from_file num_val (fs path))).
    replace (get_str (lit "./hub/vocab/v2/exact-32k-merged.json")) with (Return (B "./hub/vocab/v2/exact-32k-merged.json")) by (vm_compute; reflexivity). cbn [abind]. rewrite Hfile. reflexivity. }
  destruct (@example_run normalize fuel rnds scheds fmt_num num_val write_to vocab ps Hn Ha Hf Hs Hc Hh sps fs Hok Hsps) as (w & Hw & E). rewrite Er, E. clear Er E run.
  assert (H4 := four_new sps). destruct (Nat.eqb_spec (length (first_occurrences (sps ++ map B four))) (length (first_occurrences sps) + 4)) as [He|He]; split; intros H.
  - exists w. auto.
  - exfalso. destruct H as (sp & H1 & H2). exact (proj1 H4 He sp H1 H2).
  - exfalso. apply He. now apply H4.
  - reflexivity.
Qed.
(** Without a file the script ends in line 3; without a way to spell its first text in line 8. *)
Theorem C80_example_raises : forall normalize fuel rnds scheds fmt_num num_val write_to fs,
  let file := from_file num_val (fs (B "./hub/vocab/v2/exact-32k-merged.json")) in
  let run := example normalize fuel rnds scheds fmt_num num_val write_to fs in
  (forall e, file = Err e -> run = Failed 3) /\
  (forall vocab ps sps, file = Ok (tok_new (model_from vocab) ps sps) -> fits vocab -> (forall f s, ascii s -> normalize f s = s) -> (forall ids, ~ Spells vocab ids (B "Hello, world!")) -> run = Failed 8).
Proof.
  intros normalize fuel rnds scheds fmt_num num_val write_to fs file run.
  assert (Er : run = match raise_err file with Return t => example_from normalize fuel rnds scheds fmt_num num_val write_to (World t fs) | Raise _ => Failed 3 | Hang => Hung end).
  { unfold run, example. change (from_file_kw num_val fs [lit "./hub/vocab/v2/exact-32k-merged.json"] []) with
      (path <~ get_str (lit "./hub/vocab/v2/exact-32k-merged.json") ;; raise_err (from_file num_val (fs path))).
    replace (get_str (lit "./hub/vocab/v2/exact-32k-merged.json")) with (Return (B "./hub/vocab/v2/exact-32k-merged.json")) by (vm_compute; reflexivity). reflexivity. }
  rewrite Er. clearbody file. clear Er run. split; [intros e ->; reflexivity|]. intros vocab ps sps -> Hf Ha Hno. cbn [raise_err]. set (t := tok_new (model_from vocab) ps sps).
  assert (A1 : ascii (B "Hello, world!")) by (repeat constructor). assert (N1 : ~ In x0d (B "Hello, world!")) by (cbn; intuition discriminate).
  assert (Ee : encode_ordinary normalize t (rnds 8 0 0) (B "Hello, world!") f0 = Err (NoPath 13 13)).
  { unfold encode_ordinary, t. rewrite tok_new_model, tok_new_processors, pre_ascii by auto. destruct (C04_fails_iff_no_spelling (rnds 8 0 0) (B "Hello, world!") f0 Hf eq_refl) as [[(ids & H) _]|[_ H]]; [exfalso; exact (Hno ids H)|exact H]. }
  unfold example_from. cbv zeta. unfold ask at 1.
  change (call_kw normalize fuel (rnds 8) (scheds 8) fmt_num num_val write_to (World t fs) encode_ordinary_ [lit "Hello, world!"; PyFloat f0] []) with
    (text <~ get_str (lit "Hello, world!") ;; ids <~ raise_err (encode_ordinary normalize t (rnds 8 0 0) text f0) ;; Return (of_ids ids), World t fs).
  replace (get_str (lit "Hello, world!")) with (Return (B "Hello, world!")) by (vm_compute; reflexivity). cbn [abind]. rewrite Ee. reflexivity.
Qed.
(** scripts/benchmark.py:50 leaves out the argument [dropout]. *)
Theorem C80_benchmark_fails : forall normalize fuel rnd sched fmt_num num_val write_to w texts,
  call_kw normalize fuel rnd sched fmt_num num_val write_to w encode_batch_ [texts] [] = (Raise TypeError, w).
Proof. reflexivity. Qed.
Print Assumptions C80_framed.
Print Assumptions C80_framed_decode.
Print Assumptions C80_example.
Print Assumptions C80_example_raises.

Example C80_raises_case : forall ids, ~ Spells [ST (B "Hell") f0 false] ids (B "Hello, world!").
Proof.
  intros ids H. inversion H as [|id t ids' s Ht HS E1 E2]; subst. unfold token_at in Ht. destruct (N.to_nat id) as [|[|n]]; try discriminate. injection Ht as <-. cbn in E2. injection E2 as ->.
  inversion HS as [|id2 t2 ids2 s2 Ht2 HS2 E3 E4]; subst. unfold token_at in Ht2. destruct (N.to_nat id2) as [|[|n]]; try discriminate. injection Ht2 as <-. discriminate E4.
Qed.
(** A file with the bytes of the sentences, "Hello", and no special token, or <s> among the special ones. *)
Definition x_vocab : list scored_token := ST (B "Hello") f0 false :: map (fun b => ST [b] f0 false) (nodup Byte.byte_eq_dec (hello_world ++ hello_geex)).
Definition x_run (sps : list bytes) : outcome :=
  example ex_norm 25 (fun _ _ _ _ => f0) (fun _ => seq 0) (fun _ => B "0.0") (fun _ => Some f0) (fun _ _ _ => (false, None))
    (fun _ => Some (save_contents (fun _ => B "0.0") (tok_new (model_from x_vocab) [Crlf] sps))).
Example C80_finished_case : match x_run [] with Finished w => special_tokens (w_tok w) | _ => [] end = map B four /\
  match x_run [B "<eos>"] with Finished w => special_tokens (w_tok w) | _ => [] end = B "<eos>" :: map B four.
Proof. split; vm_compute; reflexivity. Qed.
Example C80_failed_case : x_run [B "<s>"] = Failed 49.
Proof. vm_compute. reflexivity. Qed.
Example C80_example_case : covers x_vocab (hello_world ++ hello_geex) /\ (exists t, In t x_vocab /\ st_value t = B "Hello") /\ ~ Inside (B "<eos>") hello_world /\ ~ Inside (B "<eos>") hello_geex.
Proof.
  assert (P1 : places hello_world (B "<eos>") = []) by (vm_compute; reflexivity). assert (P2 : places hello_geex (B "<eos>") = []) by (vm_compute; reflexivity). splits.
  - unfold covers, x_vocab. assert (Hl := nodup_In Byte.byte_eq_dec (hello_world ++ hello_geex)). revert Hl. generalize (nodup Byte.byte_eq_dec (hello_world ++ hello_geex)) (hello_world ++ hello_geex). intros l l' Hl.
    apply Forall_forall. intros b Hb. exists (ST [b] f0 false). split; [|reflexivity]. right. apply in_map_iff. exists b. split; [reflexivity|]. now apply Hl.
  - unfold x_vocab. generalize (map (fun b => ST [b] f0 false) (nodup Byte.byte_eq_dec (hello_world ++ hello_geex))). intros l. exists (ST (B "Hello") f0 false). split; [now left|reflexivity].
  - intros (a & b & E). destruct (@places_spec _ (B "<eos>") a b E) as [H _]. rewrite P1 in H. exact H.
  - intros (a & b & E). destruct (@places_spec _ (B "<eos>") a b E) as [H _]. rewrite P2 in H. exact H.
Qed.
Example C80_framed_case : Framed (first_occurrences (map B four)) (B "<s>") (B "Hello, world!") (B "</s>") /\
  tok_encode ex_norm 25 (tok_new (model_from x_vocab) [] (map B four)) (fun _ _ => f0) hello_world f0 = Ok [20; 0; 6; 7; 1; 9; 2; 5; 3; 15; 21]%N.
Proof.
  split; [|vm_compute; reflexivity]. apply (@example_framed [] (B "Hello, world!") hello_world); try (vm_compute; reflexivity); [discriminate|intros sp []].
Qed.
