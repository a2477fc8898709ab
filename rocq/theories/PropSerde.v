(** Properties of the serialised form of tokenizers (src/tokenizer.rs:261-297, 349-440, src/lib.rs:109-204,
    src/processor.rs).  [fmt_num] and [num_val] are serde_json's printer and parser of numbers: any that read
    the text of a finite [x] as [codec x] ([num_codec]); [codec] is the identity for an exact pair, such as the one
    in the examples. *)
From Coq Require Import Bool Eqdep_dec.
From Flocq Require Import BinarySingleNaN.
From Verif Require Import Base BaseProofs F64 Utf8 SpecUtf8 Utf8Proofs Trie Model ModelProofs SpecModel Processor Tokenizer SpecTokenizer
  TokenizerProofs TokenizerFacts SpecJson SpecSerde Base64 Base64Proofs Json JsonProofs JsonWrite Serde SerdeProofs PropModel PropTokenizer.
Set Implicit Arguments.
Local Ltac splits := repeat match goal with |- _ /\ _ => split end.

(** ** An exact number codec, for the examples: the digits 0 and 1 *)
Fixpoint bits_of_pos (p : positive) : list bool :=
  match p with
  | xH => [false]
  | xO q => true :: false :: bits_of_pos q
  | xI q => true :: true :: bits_of_pos q
  end.
Fixpoint pos_of_bits (l : list bool) : option (positive * list bool) :=
  match l with
  | false :: r => Some (xH, r)
  | true :: b :: r =>
      match pos_of_bits r with
      | Some (q, r') => Some (if b then xI q else xO q, r')
      | None => None
      end
  | _ => None
  end.
Definition ex_bits (x : f64) : list bool :=
  match x with
  | B754_finite s m e _ => s :: true :: bits_of_pos m ++ (match e with Z0 => [false] | Zpos q => true :: true :: bits_of_pos q | Zneg q => true :: false :: bits_of_pos q end)
  | B754_zero s => [s; false]
  | _ => []
  end.
Definition ex_unbits (l : list bool) : option f64 :=
  match l with
  | [s; false] => Some (B754_zero s)
  | s :: true :: r =>
      match pos_of_bits r with
      | None => None
      | Some (m, r') =>
          match (match r' with
                 | true :: b :: r'' => match pos_of_bits r'' with Some (q, _) => Some (if b then Zpos q else Zneg q) | None => None end
                 | _ => Some Z0
                 end) with
          | None => None
          | Some e =>
              match bool_dec (SpecFloat.bounded prec64 emax64 m e) true with
              | left H => Some (B754_finite s m e H)
              | right _ => None
              end
          end
      end
  | _ => None
  end.
Definition ex_fmt (x : f64) : bytes := x31 :: map (fun b : bool => if b then x31 else x30) (ex_bits x).
Definition ex_num (s : bytes) : option f64 :=
  match s with _ :: ds => ex_unbits (map (fun b => Byte.eqb b x31) ds) | [] => None end.

Lemma pos_of_bits_spec p : forall r, pos_of_bits (bits_of_pos p ++ r) = Some (p, r).
Proof. induction p as [p IH|p IH|]; intros r; simpl; try rewrite IH; reflexivity. Qed.

Lemma ex_codec : num_codec ex_fmt ex_num (fun x => x).
Proof.
  intros x Hx. split.
  - unfold ex_fmt. exists [], (x31 :: map (fun b : bool => if b then x31 else x30) (ex_bits x)), [], []. rewrite !app_nil_r.
    split; [reflexivity|]. split; [auto|]. split; [right|auto]. split; [|exists x31; eexists; split; [reflexivity|discriminate]].
    split; [discriminate|]. constructor; [unfold digit; simpl; lia|]. apply Forall_map, Forall_forall. intros [] _; unfold digit; simpl; lia.
  - unfold ex_fmt, ex_num. rewrite map_map.
    replace (map (fun b : bool => Byte.eqb (if b then x31 else x30) x31) (ex_bits x)) with (ex_bits x)
      by (symmetry; rewrite <- (map_id (ex_bits x)) at 2; apply map_ext; now intros []).
    destruct x as [s|s| |s m e He]; try discriminate; [reflexivity|]. unfold ex_bits, ex_unbits. rewrite pos_of_bits_spec.
    replace (match _ with true :: b :: r'' => _ | _ => _ end) with (Some e).
    + destruct (bool_dec (SpecFloat.bounded prec64 emax64 m e) true) as [H|H]; [|contradiction].
      now rewrite (@UIP_dec _ bool_dec _ _ H He).
    + destruct e as [|q|q]; [reflexivity| |]; rewrite <- (app_nil_r (bits_of_pos q)), pos_of_bits_spec; reflexivity.
Qed.

(** ** C19 *)
(** A saved tokenizer loads back, with the scores the number codec gives back ... *)
Theorem C19_round_trip : forall fmt_num num_val codec vocab ps sps, num_codec fmt_num num_val codec ->
  Forall unescaped sps -> Forall (fun tk => f_is_finite (st_score tk) = true) vocab ->
  let t := tok_new (model_from vocab) ps sps in
  let t' := tok_new (model_from (map (fun tk => ST (st_value tk) (codec (st_score tk)) (st_keep tk)) vocab)) ps sps in
  from_str num_val (to_string fmt_num t) = Ok t' /\
  from_str num_val (save_contents fmt_num t) = Ok t' /\
  (Forall Utf8 sps -> from_file num_val (Some (save_contents fmt_num t)) = Ok t').
Proof.
  intros fmt_num num_val codec vocab ps sps Hc Hs Hv t t'.
  assert (H : forall pretty, from_str num_val (write fmt_num pretty 0 (ser_tok t)) = Ok t').
  { intros pretty. rewrite (loads_back Hc). subst t t'. rewrite tok_new_specials, tok_new_model, tok_new_processors, model_from_vocab.
    replace (forallb plain _) with true; [replace (forallb _ vocab) with true|].
    - simpl. f_equal. apply new_first_occurrences.
    - symmetry. apply forallb_forall. rewrite Forall_forall in Hv. exact Hv.
    - symmetry. apply forallb_forall. intros s Hin. apply plain_iff. rewrite Forall_forall in Hs. apply Hs. now apply (first_occurrences_In sps). }
  split; [apply H|]. split; [apply H|]. intros Hu. rewrite (from_file_saved Hc); [apply H|].
  subst t. rewrite tok_new_specials. apply Forall_forall. intros s Hin. rewrite Forall_forall in Hu. apply Hu. now apply (first_occurrences_In sps).
Qed.
Print Assumptions C19_round_trip.
(** ... and is the very same tokenizer if numbers are printed and read exactly. *)
Theorem C19_exact_round_trip : forall fmt_num num_val vocab ps sps, num_codec fmt_num num_val (fun x => x) ->
  Forall unescaped sps -> Forall (fun tk => f_is_finite (st_score tk) = true) vocab ->
  let t := tok_new (model_from vocab) ps sps in
  from_str num_val (to_string fmt_num t) = Ok t /\
  (Forall Utf8 sps -> from_file num_val (Some (save_contents fmt_num t)) = Ok t).
Proof.
  intros fmt_num num_val vocab ps sps Hc Hs Hv t. destruct (C19_round_trip ps Hc Hs Hv) as (H1 & _ & H3).
  replace (map _ vocab) with vocab in H1, H3 by (symmetry; rewrite <- (map_id vocab) at 2; apply map_ext; now intros []). auto.
Qed.
Print Assumptions C19_exact_round_trip.
(** The two conditions are needed: a special token that needs escaping, or a score that is not finite,
    makes the written document unreadable. *)
Theorem C19_unreadable : forall fmt_num num_val codec vocab ps sps, num_codec fmt_num num_val codec ->
  ~ (Forall unescaped sps /\ Forall (fun tk => f_is_finite (st_score tk) = true) vocab) ->
  let t := tok_new (model_from vocab) ps sps in
  from_str num_val (to_string fmt_num t) = Err SerdeJSON /\ from_str num_val (save_contents fmt_num t) = Err SerdeJSON.
Proof.
  intros fmt_num num_val codec vocab ps sps Hc Hn t.
  assert (H : forall pretty, from_str num_val (write fmt_num pretty 0 (ser_tok t)) = Err SerdeJSON); [|split; apply H].
  intros pretty. rewrite (loads_back Hc). subst t. rewrite tok_new_specials, tok_new_model, model_from_vocab.
  destruct (forallb plain _) eqn:E1; [|reflexivity]. destruct (forallb _ vocab) eqn:E2; [|reflexivity]. exfalso. apply Hn.
  rewrite forallb_forall in E1, E2. split; apply Forall_forall; [|exact E2]. intros s Hin. apply plain_iff, E1. now apply (first_occurrences_In sps).
Qed.
Print Assumptions C19_unreadable.
(** The text of [to_string] is one line without control characters, the one that is saved has line ends. *)
Definition printable (s : bytes) : Prop := Forall (fun b => (0x20 <= Byte.to_N b)%N) s.
Lemma escape_printable b : printable (escape b).
Proof. destruct b; repeat (apply Forall_cons || apply Forall_nil); vm_compute; discriminate. Qed.
Lemma write_str_printable s : printable (write_str s).
Proof.
  unfold write_str. constructor; [vm_compute; discriminate|]. apply Forall_app. split; [|repeat constructor; vm_compute; discriminate].
  apply Forall_forall. intros c Hc. apply in_flat_map in Hc as (b & _ & Hc). exact (proj1 (Forall_forall _ _) (escape_printable b) c Hc).
Qed.
Lemma Number_printable s : Number s -> printable s.
Proof.
  assert (HD : forall ds, Forall digit ds -> printable ds) by (intros ds H; eapply Forall_impl; [|exact H]; unfold digit; intros b Hb; lia).
  intros (sg & ip & fp & ep & -> & Hs & Hi & Hf & He). unfold printable. rewrite !Forall_app. splits.
  - destruct Hs as [-> | ->]; repeat constructor; vm_compute; discriminate.
  - destruct Hi as [-> | [[_ Hi] _]]; [repeat constructor; vm_compute; discriminate|now apply HD].
  - destruct Hf as [-> | (ds & -> & _ & Hd)]; [constructor|]. constructor; [vm_compute; discriminate|now apply HD].
  - destruct He as [-> | He]; [constructor|]. decompose [ex and or] He; subst; repeat (apply Forall_cons || (apply Forall_app; split) || apply Forall_nil); try (vm_compute; discriminate); apply HD; unfold Digits in *; tauto.
Qed.
Lemma bracket_printable level o c items : (0x20 <= Byte.to_N o)%N -> (0x20 <= Byte.to_N c)%N -> Forall printable items -> printable (bracket false level o c items).
Proof.
  intros Ho Hc HF. unfold bracket. destruct items as [|i items]; [repeat constructor; assumption|]. constructor; [exact Ho|]. cbn [newline app]. apply Forall_app. split; [|repeat constructor; exact Hc].
  revert HF. generalize (i :: items). clear. intros l HF. induction HF as [|x l Hx HF IH]; [constructor|]. cbn [intercalate]. destruct l; [exact Hx|]. apply Forall_app. split; [exact Hx|].
  constructor; [vm_compute; discriminate|exact IH].
Qed.
Lemma write_printable fmt_num v : (forall x, f_is_finite x = true -> Number (fmt_num x)) -> forall level, printable (write fmt_num false level v).
Proof.
  intros Hn. induction v as [|b|x|p s|l IH|l IH] using json_rect'; intros level; cbn [write].
  - repeat constructor; vm_compute; discriminate.
  - destruct b; repeat constructor; vm_compute; discriminate.
  - destruct (f_is_finite x) eqn:E; [apply Number_printable; auto|repeat constructor; vm_compute; discriminate].
  - apply write_str_printable.
  - apply bracket_printable; [vm_compute; discriminate..|]. apply Forall_map. eapply Forall_impl; [|exact IH]. intros v Hv. apply Hv.
  - apply bracket_printable; [vm_compute; discriminate..|]. apply Forall_map. eapply Forall_impl; [|exact IH]. intros [[p k] v] Hv. apply Forall_app. split; [apply write_str_printable|].
    constructor; [vm_compute; discriminate|]. apply Hv.
Qed.
Theorem C19_one_line : forall fmt_num num_val codec t, num_codec fmt_num num_val codec ->
  Forall (fun b => (0x20 <= Byte.to_N b)%N) (to_string fmt_num t) /\ exists rest, save_contents fmt_num t = B "{" ++ [x0a] ++ B "  " ++ rest.
Proof.
  intros fmt_num num_val codec t Hc. split; [apply write_printable; intros x Hx; apply (Hc x Hx)|]. eexists. reflexivity.
Qed.
Print Assumptions C19_one_line.
Definition ex_bad : list bytes := [[x3c; x73; x3e]; [x0a]].
Lemma ex_unescaped : Forall unescaped ex_sps.
Proof. repeat constructor; intros [H|[H|H]]; try discriminate; now vm_compute in H. Qed.
Lemma ex_vocab2_finite : Forall (fun tk => f_is_finite (st_score tk) = true) ex_vocab2.
Proof. repeat constructor. Qed.
Lemma ex_loads ps : from_file ex_num (Some (save_contents ex_fmt (ex_tok ps))) = Ok (ex_tok ps).
Proof. apply (C19_exact_round_trip ps ex_codec ex_unescaped ex_vocab2_finite). apply ex_tok_fits. Qed.
Example C19_example :
  num_codec ex_fmt ex_num (fun x => x) /\ Forall unescaped ex_sps /\
  Forall (fun tk => f_is_finite (st_score tk) = true) ex_vocab2 /\
  from_file ex_num (Some (save_contents ex_fmt (ex_tok [Crlf; Unicode Nfkd]))) = Ok (ex_tok [Crlf; Unicode Nfkd]) /\
  ~ Forall unescaped ex_bad /\ from_str ex_num (to_string ex_fmt (tok_new (model_from ex_vocab2) [] ex_bad)) = Err SerdeJSON.
Proof.
  split; [exact ex_codec|]. split; [exact ex_unescaped|]. split; [exact ex_vocab2_finite|]. split; [apply ex_loads|]. split.
  - intros H. inversion H as [|? ? _ H']; subst. inversion H' as [|? ? H2 _]; subst. inversion H2 as [|? ? Hn _]; subst.
    apply Hn. right. right. reflexivity.
  - vm_compute. reflexivity.
Qed.

(** ** C20 *)
(** Loading a string succeeds exactly on the documents of SpecJson.v and SpecSerde.v, with the values these give ... *)
Theorem C20_accepts : forall num_val s t, from_str num_val s = Ok t <->
  exists v vocab ps sps, Document num_val s v /\ Is_tokenizer v vocab ps sps /\ t = tok_new (model_from vocab) ps sps.
Proof. exact from_str_iff. Qed.
Print Assumptions C20_accepts.
(** ... and otherwise returns an error. *)
Theorem C20_rejects : forall num_val s, (forall t, from_str num_val s <> Ok t) -> from_str num_val s = Err SerdeJSON.
Proof. intros num_val s H. destruct (from_str_total num_val s) as [[t Ht]|]; [|assumption]. now apply H in Ht. Qed.
Theorem C20_files : forall num_val contents t, from_file num_val contents = Ok t <->
  exists s, contents = Some s /\ Utf8 s /\ from_str num_val s = Ok t.
Proof.
  intros num_val [s|] t; simpl; [|split; [discriminate|intros (s & ? & _); discriminate]]. split.
  - destruct (utf8_ok s) eqn:E; [|discriminate]. apply utf8_ok_spec in E. eauto.
  - intros (s' & [= <-] & Hu & H). apply utf8_ok_spec in Hu. now rewrite Hu.
Qed.
(** In particular: *)
Theorem C20_version_and_keys : forall v vocab ps sps, Is_tokenizer v vocab ps sps ->
  exists ms, v = JObj ms /\
    (exists p, In (true, B "version", JStr p (B "2.0")) ms) /\
    forall p k w, In (p, k, w) ms -> p = true /\ (k = B "version" \/ k = B "special_tokens" \/ k = B "processors" \/ k = B "vocab").
Proof.
  intros v vocab ps sps (ms & -> & Hk & Hver & _). exists ms. split; [reflexivity|]. split.
  - destruct Hver as [_ Hl]. destruct (rev (values_of "version" ms)) as [|w ws] eqn:E; [discriminate|]. destruct Hl as (s & [= <-] & p & ->).
    exists p. assert (Hin : In (JStr p (B "2.0")) (values_of "version" ms)) by (apply in_rev; rewrite E; now left).
    unfold values_of in Hin. apply in_map_iff in Hin as ([[q k] w] & Ew & Hin). simpl in Ew. subst w.
    apply filter_In in Hin as [Hin Ek]. simpl in Ek. destruct (bytes_eqb_spec k (B "version")) as [->|]; [|discriminate].
    unfold keys_among in Hk. rewrite Forall_forall in Hk. destruct (Hk _ Hin) as [Hq _]. simpl in Hq. now subst q.
  - intros p k w Hin. unfold keys_among in Hk. rewrite Forall_forall in Hk. destruct (Hk _ Hin) as [Hp (n & Hn & En)]. simpl in Hp, En.
    split; [exact Hp|]. subst k. destruct Hn as [<-|[<-|[<-|[<-|[]]]]]; auto.
Qed.
Print Assumptions C20_version_and_keys.
(** Repeated keys: the last value counts. *)
Theorem C20_last_value_counts : forall s num_val t ms k v v', from_str num_val s = Ok t ->
  Document num_val s (JObj (ms ++ [(true, k, v); (true, k, v')])) ->
  forall s', Document num_val s' (JObj (ms ++ [(true, k, v')])) -> from_str num_val s' = Ok t.
Proof.
  intros s num_val t ms k v v' H HD s' HD'. apply from_str_iff in H as (w & vocab & ps & sps & HD2 & HT & ->).
  rewrite (Document_fun HD2 HD) in HT. apply from_str_iff. exists (JObj (ms ++ [(true, k, v')])), vocab, ps, sps. split; [exact HD'|].
  split; [|reflexivity]. destruct HT as (ms' & [= <-] & Hk & H1 & H2 & H3 & H4). exists (ms ++ [(true, k, v')]). split; [reflexivity|].
  assert (HF : forall A n (R : json -> A -> Prop) d a, Field n R (ms ++ [(true, k, v); (true, k, v')]) d a -> Field n R (ms ++ [(true, k, v')]) d a).
  { intros A n R d a. unfold Field, values_of. rewrite !filter_app, !map_app, !rev_app_distr, !Forall_app. cbn [filter fst snd].
    destruct (bytes_eqb k (B n)); [|auto]. cbn [map rev app snd]. intros [[Hf1 Hf2] Hl]. inversion Hf2; subst. auto. }
  split; [|auto 10]. unfold keys_among in *. apply Forall_app in Hk as [Hk1 Hk2]. apply Forall_app. split; [exact Hk1|]. inversion Hk2; auto.
Qed.
Example C20_example :
  from_str ex_num (B "{""version"":""1.0"",""version"":""2.0""}") = Ok (tok_new (model_from []) [] []) /\
  from_str ex_num (B "{""version"":""1.0""}") = Err SerdeJSON /\
  from_str ex_num (B "{}") = Err SerdeJSON /\
  from_str ex_num (B "{""version"":""2.0"",""name"":""x""}") = Err SerdeJSON /\
  from_str ex_num (B " { ""special_tokens"": [""<s>""], ""version"":""2.0"", ""vocab"": [{""score"": 100, ""value"": ""YQ"", ""encoded"": true, ""keep"": true}] }")
    = Ok (tok_new (model_from [ST [x61] f0 true]) [] [B "<s>"]).
Proof. repeat split; vm_compute; reflexivity. Qed.

(** ** C21 *)
(** Reading back [ser_token tk] as it was written, through text of any layout, gives the same bytes and flag. *)
Theorem C21_token_round_trip : forall fmt_num num_val codec pretty tk, num_codec fmt_num num_val codec ->
  f_is_finite (st_score tk) = true ->
  exists v, parse_document num_val (write fmt_num pretty 0 (ser_token tk)) = Some v /\
    de_token v = Some (ST (st_value tk) (codec (st_score tk)) (st_keep tk)).
Proof.
  intros fmt_num num_val codec pretty tk Hc Hf. exists (reread codec (ser_token tk)). split.
  - apply parse_document_iff. apply write_document; [exact Hc|]. unfold ser_token. destruct (utf8_ok (st_value tk)), (st_keep tk); simpl; lia.
  - rewrite de_token_ser, Hf. reflexivity.
Qed.
Print Assumptions C21_token_round_trip.
(** The document shows the bytes as they are if they are valid UTF-8, otherwise their unpadded base64 (RFC 4648). *)
Theorem C21_form : forall tk, exists ms p text, ser_token tk = JObj ms /\ In (true, B "value", JStr p text) ms /\
  (Utf8 (st_value tk) /\ text = st_value tk /\ (forall q v, ~ In (q, B "encoded", v) ms) \/
   ~ Utf8 (st_value tk) /\ Base64 (st_value tk) text /\ In (true, B "encoded", JBool true) ms).
Proof.
  intros [value score keep]. unfold ser_token. cbn [st_value st_score st_keep]. destruct (utf8_ok value) eqn:E; cbn [negb].
  - apply utf8_ok_spec in E. eexists _, (plain value), value. split; [reflexivity|]. split; [now left|]. left. split; [exact E|]. split; [reflexivity|].
    intros q v Hin. destruct keep; simpl in Hin; repeat destruct Hin as [Hin|Hin]; try discriminate; contradiction.
  - eexists _, (plain (b64_encode value)), (b64_encode value). split; [reflexivity|]. split; [now left|]. right. split; [|split; [apply b64_encode_spec|]].
    + intros H. apply utf8_ok_spec in H. congruence.
    + right. right. now left.
Qed.
Print Assumptions C21_form.
(** Base64 text stands for exactly one byte string, and decoding finds it. *)
Theorem C21_base64 : forall s text, b64_decode text = Some s <-> Base64 s text.
Proof. intros; apply b64_decode_iff. Qed.
Theorem C21_base64_unique : forall s text text', Base64 s text -> Base64 s text' -> text = text'.
Proof. intros s text text'. apply Base64_fun. Qed.
Theorem C21_accepts : forall v tk, de_token v = Some tk <-> Is_token v tk.
Proof. exact de_token_iff. Qed.
Print Assumptions C21_accepts.
Example C21_example :
  write ex_fmt false 0 (ser_token (ST [xff; x61] f0 true)) = B "{""value"":""/2E"",""score"":100,""encoded"":true,""keep"":true}" /\
  write ex_fmt false 0 (ser_token (ST [xc3; xa9; x22] f0 false)) = B "{""value"":""" ++ [xc3; xa9] ++ B "\"""",""score"":100}" /\
  option_map de_token (parse_document ex_num (B "{""value"":""/2E"",""score"":100,""encoded"":true,""keep"":true}")) = Some (Some (ST [xff; x61] f0 true)).
Proof. repeat split; vm_compute; reflexivity. Qed.

(** ** C22 *)
Theorem C22_processor_round_trip : forall fmt_num num_val codec pretty p, num_codec fmt_num num_val codec ->
  exists v, parse_document num_val (write fmt_num pretty 0 (ser_processor p)) = Some v /\ de_processor v = Some p.
Proof.
  intros fmt_num num_val codec pretty p Hc. exists (reread codec (ser_processor p)). split; [|apply de_processor_ser].
  apply parse_document_iff. apply write_document; [exact Hc|]. destruct p as [|[]]; simpl; lia.
Qed.
Print Assumptions C22_processor_round_trip.
Theorem C22_accepts : forall v p, de_processor v = Some p <-> Is_processor v p.
Proof. exact de_processor_iff. Qed.
Print Assumptions C22_accepts.
(** An object without any type is taken for the CRLF processor, even if it has a form. *)
Theorem C22_untyped_is_crlf : forall ms, Forall (fun m => fst (fst m) = true /\ snd (fst m) <> B "type") ms ->
  de_processor (JObj ms) = Some Crlf.
Proof.
  intros ms H. apply de_processor_iff. exists ms. split; [reflexivity|]. split; [eapply Forall_impl; [|exact H]; simpl; tauto|].
  unfold values_of. replace (filter _ ms) with (@nil (bool * bytes * json)); [constructor|]. symmetry.
  induction H as [|[[q k] v] ms [_ Hk] _ IH]; [reflexivity|]. simpl in *. destruct (bytes_eqb_spec k (B "type")); [contradiction|exact IH].
Qed.
Example C22_example :
  write ex_fmt false 0 (ser_processor (Unicode Nfkc)) = B "{""type"":""unicode"",""form"":""nfkc""}" /\
  option_map de_processor (parse_document ex_num (B "{""type"":""unicode"",""form"":""nfkc""}")) = Some (Some (Unicode Nfkc)) /\
  option_map de_processor (parse_document ex_num (B "{""form"":""nfkc""}")) = Some (Some Crlf) /\
  option_map de_processor (parse_document ex_num (B "{""type"":""unicode"",""form"":""nfx""}")) = Some None.
Proof. repeat split; vm_compute; reflexivity. Qed.

(** ** C23 *)
Theorem C23_prefix_is_rejected : forall fmt_num num_val codec vocab ps sps k, num_codec fmt_num num_val codec ->
  let t := tok_new (model_from vocab) ps sps in
  k < length (save_contents fmt_num t) ->
  exists e, from_file num_val (Some (firstn k (save_contents fmt_num t))) = Err e.
Proof.
  intros fmt_num num_val codec vocab ps sps k Hc t Hk.
  destruct (prefix_rejected Hc Hk); eauto.
Qed.
Print Assumptions C23_prefix_is_rejected.
(** After a crash at any point of [save], the file is the old one, or loads as the new tokenizer, or fails to load. *)
Theorem C23_after_a_crash : forall fmt_num num_val codec vocab ps sps old file, num_codec fmt_num num_val codec ->
  Forall Utf8 sps -> Forall unescaped sps -> Forall (fun tk => f_is_finite (st_score tk) = true) vocab ->
  after_crash fmt_num old (tok_new (model_from vocab) ps sps) file ->
  file = old \/ (exists e, from_file num_val file = Err e) \/
  from_file num_val file = Ok (tok_new (model_from (map (fun tk => ST (st_value tk) (codec (st_score tk)) (st_keep tk)) vocab)) ps sps).
Proof.
  intros fmt_num num_val codec vocab ps sps old file Hc Hu Hs Hv [|k]; [auto|]. right.
  destruct (Nat.lt_ge_cases k (length (save_contents fmt_num (tok_new (model_from vocab) ps sps)))) as [Hk|Hk].
  - left. eapply C23_prefix_is_rejected; eassumption.
  - right. rewrite firstn_all2 by exact Hk. now apply (C19_round_trip ps Hc Hs Hv).
Qed.
Print Assumptions C23_after_a_crash.
(** The old tokenizer is lost if the crash comes after the truncation. *)
Theorem C23_old_file_may_be_lost : forall fmt_num num_val codec old told t, num_codec fmt_num num_val codec ->
  from_file num_val old = Ok told ->
  exists file, after_crash fmt_num old t file /\ exists e, from_file num_val file = Err e.
Proof.
  intros fmt_num num_val codec old told t Hc _. exists (Some (firstn 0 (save_contents fmt_num t))). split; [constructor|].
  eexists. reflexivity.
Qed.
Example C23_example : let t := ex_tok [Crlf] in
  from_file ex_num (Some (firstn 20 (save_contents ex_fmt t))) = Err SerdeJSON /\
  from_file ex_num (Some (firstn (length (save_contents ex_fmt t) - 1) (save_contents ex_fmt t))) = Err SerdeJSON /\
  from_file ex_num (Some (save_contents ex_fmt t)) = Ok t.
Proof. intros t. split; [vm_compute; reflexivity|]. split; [vm_compute; reflexivity|]. apply ex_loads. Qed.
