(** Properties C62 and C63: the Python class Tokenizer. *)
From Coq Require Import Sorted Permutation DecimalString DecimalFacts DecimalN.
From Coq.Strings Require Import String.
From Verif Require Import Base BaseProofs F64 Utf8 SpecUtf8 Utf8Proofs SpecJson Trie Model SpecModel Processor Tokenizer SpecTokenizer Json JsonWrite Serde SpecSerde Regex RegexJoin
  EncodeProofs TokenizerProofs TokenizerFacts SerdeProofs PropModel PropTokenizer PropSerde Py SpecPy.
Set Implicit Arguments.
Local Open Scope list_scope.
Local Ltac splits := repeat match goal with |- _ /\ _ => split end.

Lemma is_scalar_iff c : is_scalar c = true <-> scalar c.
Proof. unfold is_scalar, scalar, between. rewrite orb_true_iff, andb_true_iff. rewrite N.ltb_lt, !N.leb_le. lia. Qed.
Lemma scalars_iff s : forallb is_scalar s = true <-> Forall scalar s.
Proof. rewrite forallb_forall, Forall_forall. split; intros H x Hx; apply is_scalar_iff; auto. Qed.
Lemma chars_of s : Forall scalar s -> chars (encode_string s) = s.
Proof. intros H. pose proof (chars_encode [] H) as E. now rewrite !app_nil_r in E. Qed.

(** ** Conversions *)
Definition gets {T} (get : py -> answer T) (a : ty) : Prop :=
  forall v, match get v with Return _ => Has a v | Raise e => ~ Has a v /\ Refusal e | Hang => False end.
Lemma gets_str : gets get_str TText.
Proof.
  intros v. unfold Refusal. destruct v; simpl; try (split; [tauto|auto]). destruct (forallb is_scalar s) eqn:E; [now apply scalars_iff|].
  split; [|auto]. intros H. apply scalars_iff in H. congruence.
Qed.
Lemma gets_int n a : (forall z, Has a (PyInt z) <-> (0 <= z < n)%Z) -> (forall b, Has a (PyBool b)) ->
  (forall v, match v with PyInt _ | PyBool _ => True | _ => ~ Has a v end) -> gets (get_int n) a.
Proof.
  intros H1 H2 H3 v. specialize (H3 v). unfold Refusal. destruct v; cbn [get_int]; auto.
  destruct ((0 <=? z)%Z && (z <? n)%Z) eqn:E.
  - apply H1. lia.
  - split; [|auto]. rewrite H1. lia.
Qed.
Lemma gets_u32 : gets get_u32 TId.
Proof. apply gets_int; [reflexivity|constructor|]. intros []; simpl; auto. Qed.
Lemma gets_u8 : gets get_u8 TByte.
Proof.
  assert (H : gets (get_int 256) TByte). { apply gets_int; [reflexivity|constructor|]. intros []; simpl; auto. }
  intros v. specialize (H v). unfold get_u8. destruct (get_int 256 v); simpl in *; auto.
Qed.
Lemma gets_f64 : gets get_f64 TNumber.
Proof.
  intros v. unfold Refusal. destruct v; simpl; try (split; [tauto|auto]); try exact I. destruct (f_is_finite (f64_of_Z z)) eqn:E; [reflexivity|].
  split; [congruence|auto].
Qed.
Lemma gets_bool : gets get_bool TFlag.
Proof. intros v. unfold Refusal. destruct v; simpl; try (split; [tauto|auto]); exact I. Qed.
Lemma gets_vec T (get : py -> answer T) a : gets get a -> gets (get_vec get) (TSeq a).
Proof.
  intros H.
  assert (G : forall l, match get_all get l with Return _ => Forall (Has a) l | Raise e => ~ Forall (Has a) l /\ Refusal e | Hang => False end).
  { induction l as [|v l IH]; simpl; [constructor|]. specialize (H v). destruct (get v) as [x|e|]; simpl; [|split; [|tauto]|exact H].
    - destruct (get_all get l); simpl; [now constructor| |exact IH]. split; [|tauto]. intros HF. inversion HF; subst. tauto.
    - intros HF. inversion HF; subst. tauto. }
  intros v. unfold get_vec. destruct v; cbn [items abind]; try (split; [simpl; tauto|left; reflexivity]); try exact (G l).
  specialize (G (map (fun b => PyInt (Z.of_N (bN b))) s)). assert (E := Forall_map (fun b => PyInt (Z.of_N (bN b))) (Has a) s). cbn [Has].
  destruct (get_all get _); [now apply E|split; [rewrite <- E|]; tauto|exact G].
Qed.

(** What an argument is. *)
Lemma get_id a id : Id a id -> get_u32 a = Return id.
Proof.
  intros [[-> |[(-> & ->)|(-> & ->)]] H]; try reflexivity. unfold get_u32, get_int. replace (_ && _) with true by (change (2 ^ 32)%Z with (Z.of_N (2 ^ 32)); lia). now rewrite N2Z.id.
Qed.
Lemma has_id a : Has TId a -> exists id, Id a id.
Proof.
  destruct a as [|b|z| | | | | |]; cbn [Has]; try contradiction; intros H.
  - exists (if b then 1 else 0)%N. destruct b; (split; [unfold Number; auto|reflexivity]).
  - exists (Z.to_N z). split; [left; f_equal; lia|change (2 ^ 32)%N with (Z.to_N (2 ^ 32)); lia].
Qed.
Lemma get_text a s : Text a s -> get_str a = Return s.
Proof. intros (cs & -> & H & <-). cbn [get_str]. now rewrite (proj2 (scalars_iff cs) H). Qed.
Lemma has_text a : Has TText a -> exists s, Text a s.
Proof. destruct a; cbn [Has]; try contradiction. intros H. eexists. eexists. auto. Qed.
Lemma text_of v s : Text v s -> v = of_str s.
Proof. intros (cs & -> & H & <-). unfold of_str. now rewrite chars_of. Qed.
Lemma of_text s : Utf8 s -> Text (of_str s) s.
Proof. intros (cs & H & ->). exists cs. unfold of_str. now rewrite chars_of. Qed.
Lemma get_byte a b : Number a (bN b) -> get_u8 a = Return b.
Proof.
  assert (E : forall n, n = bN b -> byte_of_N n = b) by (intros n ->; apply byte_of_N_bN).
  intros H. unfold get_u8, get_int. pose proof (bN_lt b) as Hb. destruct H as [-> |[(-> & H)|(-> & H)]].
  - replace (_ && _) with true by lia. cbn [abind]. now rewrite N2Z.id, E.
  - cbn [abind]. now rewrite E.
  - cbn [abind]. now rewrite E.
Qed.
Lemma get_bytes a s : Bytes a s -> get_vec get_u8 a = Return s.
Proof.
  assert (G : forall l, Forall2 (fun v b => Number v (bN b)) l s -> get_all get_u8 l = Return s).
  { intros l H. induction H as [|v b l s H _ IH]; [reflexivity|]. cbn [get_all]. rewrite (get_byte b H). cbn [abind]. now rewrite IH. }
  intros [-> |(l & [-> | ->] & H)]; unfold get_vec; cbn [items abind]; auto. apply G. clear. induction s; constructor; auto. now left.
Qed.
Lemma has_bytes a : Has (TSeq TByte) a -> exists s, Bytes a s.
Proof.
  assert (G : forall l, Forall (Has TByte) l -> exists s, Forall2 (fun v b => Number v (bN b)) l s).
  { induction 1 as [|v l H _ (s & IH)]; [exists []; constructor|].
    assert (exists b, Number v (bN b)) as (b & Hb); [|exists (b :: s); now constructor].
    destruct v as [|b|z| | | | | |]; cbn [Has] in H; try contradiction.
    - exists (if b then x01 else x00). destruct b; unfold Number; auto.
    - exists (byte_of_N (Z.to_N z)). left. f_equal. rewrite bN_byte_of_N; lia. }
  destruct a; cbn [Has]; try contradiction; intros H.
  - exists s. now left.
  - destruct (G l H) as (s & Hs). exists s. right. eauto.
  - destruct (G l H) as (s & Hs). exists s. right. eauto.
Qed.
Lemma sorted_same (l : list (N * nat)) : forall l', StronglySorted lt (map snd l) -> StronglySorted lt (map snd l') -> (forall id len, In (id, len) l <-> In (id, len) l') -> l = l'.
Proof.
  induction l as [|[i n] l IH]; intros [|[i' n'] l'] H H' HE; auto.
  - exfalso. apply (HE i' n'). now left.
  - exfalso. apply (HE i n). now left.
  - cbn [map snd] in H, H'. inversion H as [|? ? S1 F1]; subst. inversion H' as [|? ? S2 F2]; subst. rewrite Forall_forall in F1, F2.
    assert (G1 : forall j m, In (j, m) l -> n < m). { intros j m Hj. apply F1. apply in_map_iff. exists (j, m). auto. }
    assert (G2 : forall j m, In (j, m) l' -> n' < m). { intros j m Hj. apply F2. apply in_map_iff. exists (j, m). auto. }
    assert (E : (i, n) = (i', n')).
    { destruct (proj1 (HE i n) (or_introl eq_refl)) as [E|E]; [congruence|]. destruct (proj2 (HE i' n') (or_introl eq_refl)) as [E'|E']; [congruence|].
      apply G2 in E. apply G1 in E'. lia. }
    injection E as <- <-. f_equal. apply IH; auto. intros j m. specialize (HE j m). split; intros Hj.
    + destruct (proj1 HE (or_intror Hj)) as [E|E]; auto. injection E as <- <-. apply G1 in Hj. lia.
    + destruct (proj2 HE (or_intror Hj)) as [E|E]; auto. injection E as <- <-. apply G2 in Hj. lia.
Qed.

Definition quiet {T} (r : answer T) : Prop := forall e, r = Raise e -> ~ Refusal e.
Definition refuses {T} (r : answer T) : Prop := exists e, r = Raise e /\ Refusal e.
Lemma quiet_return T (v : T) : quiet (Return v).
Proof. intros e H. discriminate. Qed.
Lemma quiet_err A T (r : res A) (k : A -> answer T) : (forall x, quiet (k x)) -> quiet (x <~ raise_err r ;; k x).
Proof. intros H. destruct r; simpl; try (intros ? E; discriminate); [apply H| |]; intros ? E; injection E as <-; unfold Refusal; intuition discriminate. Qed.
Lemma refuses_one A T (get : py -> answer A) a v (k : A -> answer T) : gets get a -> (forall x, quiet (k x)) -> refuses (x <~ get v ;; k x) <-> ~ Has a v.
Proof.
  intros Hg Hk. specialize (Hg v). unfold refuses. destruct (get v) as [x|e|]; simpl; [|split; [tauto|eauto]|tauto].
  split; [intros (e & E & H); exfalso; exact (Hk x e E H)|tauto].
  intros _. exists e. tauto.
Qed.
Lemma refuses_two A B T (g1 : py -> answer A) (g2 : py -> answer B) a b v1 v2 (k : A -> B -> answer T) : gets g1 a -> gets g2 b ->
  (forall x y, quiet (k x y)) -> refuses (x <~ g1 v1 ;; y <~ g2 v2 ;; k x y) <-> ~ (Has a v1 /\ Has b v2).
Proof.
  intros H1 H2 Hk. pose proof (H1 v1) as G1. pose proof (H2 v2) as G2. unfold refuses. destruct (g1 v1) as [x|e|]; simpl; [|split; [tauto|exists e; tauto]|tauto].
  destruct (g2 v2) as [y|e|]; simpl; [|split; [tauto|exists e; tauto]|tauto].
  split; [intros (e & E & H); exfalso; exact (Hk x y e E H)|tauto].
Qed.
Lemma has_none : Forall2 Has [] [] <-> True.
Proof. split; [auto|constructor]. Qed.
Lemma has_one a v : Forall2 Has [a] [v] <-> Has a v.
Proof. split; [intros H; now inversion H|intros H; auto]. Qed.
Lemma has_two a b v w : Forall2 Has [a; b] [v; w] <-> Has a v /\ Has b w.
Proof. split; [intros H; inversion H as [|? ? ? ? H1 H2]; subst; inversion H2; auto|intros [H1 H2]; auto]. Qed.
Lemma wrong_arity l args : length l <> length args -> ~ Forall2 Has l args.
Proof. intros H HF. apply H. clear H. induction HF; simpl; auto. Qed.

Lemma get_ids ids : Forall (fun id => (id < 2 ^ 32)%N) ids -> get_vec get_u32 (of_ids ids) = Return ids.
Proof.
  intros H. unfold get_vec, of_ids. cbn [items abind]. induction H as [|id ids H Hs IH]; [reflexivity|]. cbn [map get_all].
  rewrite IH. unfold get_u32, get_int, of_id. replace (_ && _) with true by (change (2 ^ 32)%Z with (Z.of_N (2 ^ 32)); lia). cbn [abind]. now rewrite N2Z.id.
Qed.
Lemma spells_bound vocab ids bs : Spells vocab ids bs -> Forall (fun id => (id < N.of_nat (length vocab))%N) ids.
Proof.
  induction 1 as [|id t ids bs Ht H IH]; constructor; [|exact IH]. unfold token_at in Ht. assert (Hl : N.to_nat id < length vocab) by (apply nth_error_Some; congruence). lia.
Qed.
Lemma decodes_bound vocab sps incl ids out : Decodes vocab sps incl ids out -> Forall (fun id => (id < N.of_nat (length vocab + length sps))%N) ids.
Proof.
  assert (G : forall run bs, Spells vocab run bs -> Forall (fun id => (id < N.of_nat (length vocab + length sps))%N) run).
  { intros run bs H. apply spells_bound in H. eapply Forall_impl; [|exact H]. cbn beta. lia. }
  induction 1 as [run bs out H _|run bs out k sp ids out' H _ Hk _ IH]; [eauto|]. apply Forall_app. split; [eauto|]. constructor; [|exact IH].
  assert (k < length sps) by (apply nth_error_Some; congruence). lia.
Qed.
Lemma decodes_more vocab sps more incl ids out : Decodes vocab sps incl ids out -> Decodes vocab (sps ++ more) incl ids out.
Proof.
  induction 1 as [run bs out H HL|run bs out k sp ids out' H HL Hk _ IH]; [eapply Decodes_last; eauto|]. eapply Decodes_special; eauto.
  rewrite nth_error_app1; [exact Hk|]. apply nth_error_Some. congruence.
Qed.
Lemma fits_less vocab sps more : tok_fits vocab (sps ++ more) -> tok_fits vocab sps.
Proof.
  intros (H1 & H2 & H3). apply Forall_app in H3 as [H3 _]. rewrite (proj2 (C14_registered vocab [] sps more)), app_length in H2. split; [exact H1|split; [lia|exact H3]].
Qed.
Lemma adds_exist c : exists l, Adds c l.
Proof.
  destruct c as [m args].
  destruct m; try (exists []; apply adds_other; discriminate).
  destruct args as [|v [|v2 args]]; try (exists []; apply adds_refused; apply wrong_arity; simpl; lia).
  assert (G : forall l, Forall (Has TText) l -> exists ss, l = map PyStr ss /\ Forall (Forall scalar) ss).
  { induction 1 as [|x l Hx H (ss & -> & HF)]; [exists []; auto|]. destruct x; try contradiction. exists (s :: ss). split; [reflexivity|]. constructor; auto. }
  destruct v; try (exists []; apply adds_refused; cbn [signature]; rewrite has_one; cbn [Has]; tauto).
  - destruct s as [|b s]; [exists []; apply adds_no_bytes|]. exists []. apply adds_refused. cbn [signature]. rewrite has_one. cbn [Has]. intros H. apply Forall_inv in H. exact H.
  - pose proof (gets_vec gets_str (PyList l)) as H. destruct (get_vec get_str (PyList l)).
    + destruct (G l H) as (ss & -> & HF). eexists. eapply adds_tokens; eauto.
    + exists []. apply adds_refused. cbn [signature]. rewrite has_one. tauto.
    + contradiction.
  - pose proof (gets_vec gets_str (PyTuple l)) as H. destruct (get_vec get_str (PyTuple l)).
    + destruct (G l H) as (ss & -> & HF). eexists. eapply adds_tokens; eauto.
    + exists []. apply adds_refused. cbn [signature]. rewrite has_one. tauto.
    + contradiction.
Qed.
Lemma get_strs ss : Forall (Forall scalar) ss -> get_all get_str (map PyStr ss) = Return (map encode_string ss).
Proof. induction 1 as [|s ss H _ IH]; [reflexivity|]. cbn [map get_all get_str]. rewrite (proj2 (scalars_iff s) H), IH. reflexivity. Qed.

(** ** Numbers in error messages *)
Definition horner_step := fun (acc : N) (b : byte) => (10 * acc + digit_value b)%N.
Lemma fold_cons b l a : fold_left horner_step (b :: l) a = fold_left horner_step l (10 * a + digit_value b)%N.
Proof. reflexivity. Qed.
Local Ltac digs := match goal with |- context [B (NilEmpty.string_of_uint (?D ?u))] =>
  change (B (NilEmpty.string_of_uint (D u))) with (match B (NilEmpty.string_of_uint (D Decimal.Nil)) with b :: _ => b | [] => x00 end :: B (NilEmpty.string_of_uint u)) end.
Lemma horner u : forall acc, N.pos (Pos.of_uint_acc u acc) = fold_left horner_step (B (NilEmpty.string_of_uint u)) (N.pos acc).
Proof.
  induction u; intros acc; [reflexivity|..]; digs; rewrite fold_cons; cbn [Pos.of_uint_acc]; rewrite IHu; f_equal;
  match goal with |- context [digit_value ?b] => let v := eval vm_compute in (digit_value b) in change (digit_value b) with v end; clear; lia.
Qed.
Lemma horner0 u : fold_left horner_step (B (NilEmpty.string_of_uint u)) 0%N = N.of_uint u.
Proof.
  unfold N.of_uint. induction u; [reflexivity|..]; digs; rewrite fold_cons;
  match goal with |- context [digit_value ?b] => let v := eval vm_compute in (digit_value b) in change (digit_value b) with v end; cbn [N.mul N.add Pos.of_uint];
  [exact IHu|..]; rewrite horner; reflexivity.
Qed.
Lemma string_digits u : Forall digit (B (NilEmpty.string_of_uint u)).
Proof. induction u; [constructor|..]; digs; (constructor; [vm_compute; split; discriminate|exact IHu]). Qed.
Lemma to_uint_norm n : Decimal.unorm (N.to_uint n) = N.to_uint n.
Proof. rewrite <- (DecimalN.Unsigned.to_of (N.to_uint n)). now rewrite DecimalN.Unsigned.of_to. Qed.
Lemma to_uint_zero n u : N.to_uint n = Decimal.D0 u -> u = Decimal.Nil.
Proof.
  intros H. pose proof (to_uint_norm n) as E. rewrite H in E. unfold Decimal.unorm in E. destruct (Decimal.nzhead (Decimal.D0 u)) as [|u'| | | | | | | | |] eqn:E2; try discriminate.
  - injection E as <-. reflexivity.
  - exfalso. exact (DecimalFacts.nzhead_nonzero _ _ E2).
Qed.
Lemma to_uint_some n : N.to_uint n <> Decimal.Nil.
Proof. intros H. pose proof (to_uint_norm n) as E. rewrite H in E. discriminate. Qed.
Lemma decimal_spec n : Numeral n (decimal n).
Proof.
  unfold decimal, NilZero.string_of_uint. pose proof (to_uint_some n) as Hs. pose proof (@to_uint_zero n) as Hz. pose proof (DecimalN.Unsigned.of_to n) as E.
  assert (E2 : (match N.to_uint n with Decimal.Nil => "0"%string | _ => NilEmpty.string_of_uint (N.to_uint n) end) = NilEmpty.string_of_uint (N.to_uint n)) by (destruct (N.to_uint n); [contradiction|reflexivity..]).
  rewrite E2. clear E2. split; [split; [|apply string_digits]|split].
  - destruct (N.to_uint n); [contradiction|discriminate..].
  - change (fold_left horner_step (B (NilEmpty.string_of_uint (N.to_uint n))) 0%N = n). now rewrite horner0.
  - intros s' H. destruct (N.to_uint n); try contradiction; try (revert H; digs; discriminate).
    rewrite (Hz u eq_refl) in H. vm_compute in H. congruence.
Qed.

(** ** Results *)
Lemma no_args args : Forall2 Has [] args -> args = [].
Proof. now inversion 1. Qed.
Lemma one_arg a args : Forall2 Has [a] args -> exists v, args = [v] /\ Has a v.
Proof. intros H. inversion H as [|? v ? l Hv Hl]; subst. apply no_args in Hl as ->. eauto. Qed.
Lemma two_args a b args : Forall2 Has [a; b] args -> exists v1 v2, args = [v1; v2] /\ Has a v1 /\ Has b v2.
Proof. intros H. inversion H as [|? v ? l Hv Hl]; subst. apply one_arg in Hl as (v2 & -> & H2). eauto 6. Qed.
Lemma of_ids_list ids : Forall (fun id => (id < 2 ^ 32)%N) ids -> Gives (RList RId) (of_ids ids).
Proof. intros H. apply Forall_map. eapply Forall_impl; [|exact H]. intros id Hid. cbn beta in Hid. change (0 <= Z.of_N id < Z.of_N (2 ^ 32))%Z. lia. Qed.
Lemma of_str_text s : Utf8 s -> Gives RText (of_str s).
Proof. intros (cs & H & ->). unfold of_str. rewrite chars_of by exact H. exact H. Qed.
Lemma encode_ids_bound normalize vocab ps sps fuel rnd s d ids : keeps_utf8 normalize -> tok_fits vocab sps -> Utf8 s -> List.length s < fuel ->
  tok_encode normalize fuel (tok_new (model_from vocab) ps sps) rnd s d = Ok ids -> Forall (fun id => (id < 2 ^ 32)%N) ids.
Proof.
  intros Hn Hf Hs Hl H. destruct (@C10_encode_ends_iff normalize vocab ps sps s d rnd Hn Hf Hs) as [((pcs & HP) & _)|[_ HD]]; [|rewrite HD in H; discriminate].
  destruct (proj1 (@C09_encode_by_pieces normalize vocab ps sps fuel rnd s d ids pcs Hn Hf Hs Hl HP) H) as (parts & E & Hlen & H'). clear H. rename H' into H. rewrite E. apply Forall_concat, Forall_forall. intros part Hin.
  apply In_nth_error in Hin as (i & Hi). assert (Hi' : i < List.length pcs) by (rewrite <- Hlen; apply nth_error_Some; congruence).
  destruct (nth_error pcs i) as [pc|] eqn:Ep; [|apply nth_error_None in Ep; lia]. specialize (H i pc part Ep Hi). destruct Hf as (Hf1 & Hf2 & Hf3). destruct pc as [k|p].
  - subst part. constructor; [|constructor]. assert (k < List.length (first_occurrences sps)); [|lia].
    assert (HPk : forall t pcs, Pieces (first_occurrences sps) t pcs -> In (Special k) pcs -> k < List.length (first_occurrences sps)).
    { clear. induction 1 as [|k' sp r pcs _ _ Hk _ IH|p r pcs _ _ _ _ IH]; intros Hin; [destruct Hin|destruct Hin as [E|Hin]; [injection E as ->; apply nth_error_Some; congruence|auto]|destruct Hin as [E|Hin]; [discriminate|auto]]. }
    eapply HPk; [exact HP|]. eapply nth_error_In; eauto.
  - unfold encode_ordinary in H. rewrite tok_new_model in H. apply (C01_encode_spells _ _ _ Hf1) in H as (_ & H). eapply Forall_impl; [|exact H]. cbn beta. lia.
Qed.
Lemma ordinary_ids_bound normalize vocab ps sps rnd s d ids : tok_fits vocab sps -> encode_ordinary normalize (tok_new (model_from vocab) ps sps) rnd s d = Ok ids -> Forall (fun id => (id < 2 ^ 32)%N) ids.
Proof.
  intros (Hf1 & Hf2 & _) H. unfold encode_ordinary in H. rewrite tok_new_model in H. apply (C01_encode_spells _ _ _ Hf1) in H as (_ & H). eapply Forall_impl; [|exact H]. cbn beta. lia.
Qed.
Lemma ordinary_answers normalize vocab ps sps rnd s d : tok_fits vocab sps ->
  (exists ids, encode_ordinary normalize (tok_new (model_from vocab) ps sps) rnd s d = Ok ids) \/ (exists n, encode_ordinary normalize (tok_new (model_from vocab) ps sps) rnd s d = Err (NoPath n n)).
Proof. intros (Hf1 & _). unfold encode_ordinary. rewrite tok_new_model. destruct (C04_never_panics rnd (preprocess_all normalize (tk_processors (tok_new (model_from vocab) ps sps)) s) d Hf1) as [H|H]; [left|right]; eauto. Qed.
Lemma get_str_ok v : Has TText v -> exists s, v = PyStr s /\ Forall scalar s /\ get_str v = Return (encode_string s).
Proof. destruct v; try contradiction. intros H. exists s. cbn [get_str]. now rewrite (proj2 (scalars_iff s) H). Qed.
Lemma gets_ok T (get : py -> answer T) a v : gets get a -> Has a v -> exists x, get v = Return x.
Proof. intros H Hv. specialize (H v). destruct (get v); [eauto|tauto|contradiction]. Qed.
Lemma get_strs_ok v : Has (TSeq TText) v -> exists ss, Forall (Forall scalar) ss /\ get_vec get_str v = Return (map encode_string ss) /\ texts_in v = ss.
Proof.
  assert (G : forall l, Forall (Has TText) l -> exists ss, Forall (Forall scalar) ss /\ get_all get_str l = Return (map encode_string ss) /\ texts_in (PyList l) = ss).
  { induction 1 as [|x l Hx H (ss & HF & E1 & E2)]; [exists []; auto|]. destruct (get_str_ok _ Hx) as (s & -> & Hs & E). exists (s :: ss). split; [now constructor|]. cbn [get_all]. rewrite E, E1. split; [reflexivity|]. cbn [texts_in flat_map List.app] in *. now rewrite E2. }
  destruct v; cbn [Has]; try contradiction; try exact (G l). destruct s as [|b s]; [|intros H; apply Forall_inv in H; contradiction]. intros _. exists []. auto.
Qed.
Lemma complain_encode n : exists n' num, Numeral n' num /\ TokenGeeXError (error_text (NoPath n n)) = TokenGeeXError (Some (B "no path to position " ++ num ++ B "/" ++ num)).
Proof. exists (N.of_nat n), (decimal (N.of_nat n)). split; [apply decimal_spec|reflexivity]. Qed.
Lemma complain_decode id : exists n' num, Numeral n' num /\ TokenGeeXError (error_text (TokenIdOutOfBounds id)) = TokenGeeXError (Some (B "token id " ++ num ++ B " is out of bounds")).
Proof. exists id, (decimal id). split; [apply decimal_spec|reflexivity]. Qed.
Lemma ok_or_not T (r : res T) : (exists x, r = Ok x) \/ (forall x, r <> Ok x).
Proof. destruct r; [left; eauto|right; discriminate..]. Qed.
Lemma forall2_seq_Forall A T (Q : T -> Prop) (R : nat -> T -> Prop) (l : list A) outs k :
  (forall i a o, nth_error l i = Some a -> R (k + i) o -> Q o) -> Forall2 R (seq k (List.length l)) outs -> Forall Q outs.
Proof.
  revert k outs. induction l as [|a l IH]; intros k outs H HF; cbn [List.length seq] in HF; inversion HF; subst; constructor.
  - eapply (H 0 a); [reflexivity|]. now rewrite Nat.add_0_r.
  - eapply (IH (S k)); [|eassumption]. intros i b o Hi Ho. eapply (H (S i) b); [exact Hi|]. now rewrite Nat.add_succ_r.
Qed.

Lemma spells_concat vocab ids bs : Spells vocab ids bs -> exists vs, Forall2 (fun id v => exists t, token_at vocab id t /\ st_value t = v) ids vs /\ List.concat vs = bs.
Proof. induction 1 as [|id t ids bs Ht _ (vs & HF & <-)]; [exists []; auto|]. exists (st_value t :: vs). split; [constructor; eauto|reflexivity]. Qed.
(** The tokens of what encode answers, one after the other. *)
Definition piece_out normalize ps sps (pc : piece) : bytes :=
  match pc with Special k => nth k (first_occurrences sps) [] | Plain p => preprocess_all normalize ps p end.
Lemma encode_tokens normalize vocab ps sps fuel rnd s d ids pcs : keeps_utf8 normalize -> tok_fits vocab sps -> Utf8 s -> List.length s < fuel -> Pieces (first_occurrences sps) s pcs ->
  tok_encode normalize fuel (tok_new (model_from vocab) ps sps) rnd s d = Ok ids ->
  exists vs, Forall2 (fun id v => tok_id_to_token (tok_new (model_from vocab) ps sps) id = Some v) ids vs /\ List.concat vs = List.concat (map (piece_out normalize ps sps) pcs).
Proof.
  intros Hn Hf Hs Hl HP H. destruct (proj1 (@C09_encode_by_pieces normalize vocab ps sps fuel rnd s d ids pcs Hn Hf Hs Hl HP) H) as (parts & E & Hlen & H'). clear H.
  assert (HK : forall k, In (Special k) pcs -> k < List.length (first_occurrences sps)).
  { clear -HP. induction HP as [|k' sp r pcs _ _ Hk _ IH|p r pcs _ _ _ _ IH]; intros k Hin; [destruct Hin|destruct Hin as [E|Hin]; [injection E as ->; apply nth_error_Some; congruence|auto]|destruct Hin as [E|Hin]; [discriminate|auto]]. }
  rewrite E. clear E HP ids.
  assert (G : forall pcs parts j, (forall k, In (Special k) pcs -> k < List.length (first_occurrences sps)) -> List.length parts = List.length pcs -> (forall i pc part, nth_error pcs i = Some pc -> nth_error parts i = Some part ->
      match pc with
      | Special k => part = [N.of_nat (List.length vocab + k)]
      | Plain p => encode_ordinary normalize (tok_new (model_from vocab) ps sps) (rnd (j + i)) p d = Ok part
      end) -> exists vs, Forall2 (fun id v => tok_id_to_token (tok_new (model_from vocab) ps sps) id = Some v) (List.concat parts) vs /\ List.concat vs = List.concat (map (piece_out normalize ps sps) pcs)).
  { clear -Hf. induction pcs as [|pc pcs IH]; intros parts j HK Hlen H; destruct parts as [|part parts]; try discriminate; [exists []; split; [constructor|reflexivity]|].
    destruct (IH parts (S j)) as (vs & HF & E); [intros k Hk; apply HK; now right|now injection Hlen|intros i pc' part' H1 H2; specialize (H (S i) pc' part' H1 H2); now rewrite Nat.add_succ_r in H|].
    specialize (H 0 pc part eq_refl eq_refl). destruct pc as [k|p].
    - subst part. exists (nth k (first_occurrences sps) [] :: vs). split; [|cbn [List.concat map piece_out]; now rewrite E]. cbn [List.concat List.app]. constructor; [|exact HF].
      apply (C13_id_to_token _ _ _ Hf). right. exists k. split; [reflexivity|]. apply nth_error_nth'. apply HK. now left.
    - unfold encode_ordinary in H. rewrite tok_new_model, tok_new_processors in H. pose proof Hf as (Hf1 & _). apply (C01_encode_spells _ _ _ Hf1) in H as (H & _). apply spells_concat in H as (us & HU & EU).
      exists (us ++ vs). split; [|cbn [List.concat map piece_out]; now rewrite concat_app, EU, E]. cbn [List.concat]. apply Forall2_app; [|exact HF].
      clear -HU Hf. induction HU as [|id v ids us H _ IH]; constructor; [|exact IH]. apply (C13_id_to_token _ _ _ Hf). now left. }
  apply (G pcs parts 0); auto.
Qed.

Section C62.
  Variable normalize : unicode_form -> bytes -> bytes.
  Variable fuel : nat.
  Variable rnd : nat -> nat -> nat -> f64.
  Variable sched : nat -> list nat.
  Variable fmt_num : f64 -> bytes.
  Variable num_val : bytes -> option f64.
  Variable write_to : files -> bytes -> bytes -> bool * option bytes.
  Notation call := (call normalize fuel rnd sched fmt_num num_val write_to).
  Notation calls := (calls normalize fuel rnd sched fmt_num num_val write_to).
  Notation read := (read normalize fuel rnd sched fmt_num).

  (** *** Which arguments are refused *)
  (** A call is refused if and only if its arguments are not of the types of the method; then it changes nothing. *)
  Theorem C62_refused : forall w m args,
    ((exists e, fst (call w m args) = Raise e /\ Refusal e) <-> ~ Forall2 Has (signature m) args) /\
    (~ Forall2 Has (signature m) args -> snd (call w m args) = w).
  Proof.
    intros w m args. change ((refuses (fst (call w m args)) <-> ~ Forall2 Has (signature m) args) /\ (~ Forall2 Has (signature m) args -> snd (call w m args) = w)).
    destruct m; destruct args as [|v1 [|v2 [|v3 args]]]; cbn [signature];
      try (split; [|intros _; reflexivity]; split; [intros _; apply wrong_arity; simpl; lia|intros _; exists TypeError; split; [reflexivity|now left]]);
      rewrite ?has_none, ?has_one, ?has_two;
      try (split; [|intros _; reflexivity]; cbn [Py.call Py.read fst];
           first [split; [intros (e & E & _); discriminate|tauto]
                 |apply refuses_one; [auto using gets_str, gets_u32, gets_u8, gets_vec|intros; apply quiet_return]
                 |apply refuses_two; [auto using gets_str, gets_u32, gets_u8, gets_vec|auto using gets_f64, gets_bool|intros; apply quiet_err; intros; apply quiet_return]]).
    - pose proof (gets_vec gets_str v1) as H. cbn [Py.call]. unfold refuses. destruct (get_vec get_str v1) as [x|e|]; cbn [fst snd]; [|split; [split; [tauto|exists e; tauto]|reflexivity]|tauto].
      split; [split; [intros (e & E & _); discriminate|tauto]|tauto].
    - pose proof (gets_str v1) as H. cbn [Py.call]. unfold refuses. destruct (get_str v1) as [x|e|]; cbn [fst snd]; [|split; [split; [tauto|exists e; tauto]|reflexivity]|tauto].
      destruct (write_to _ _ _). cbn [fst snd]. split; [split; [intros (e & E & _); discriminate|tauto]|tauto].
    - cbn [Py.call]. unfold refuses. destruct v1; try (split; [split; [intros _ H; exact H|intros _; exists TypeError; split; [reflexivity|now left]]|reflexivity]).
      destruct (from_slice num_val s); cbn [fst snd]; (split; [split; [intros (x & E & H); try discriminate; injection E as <-; unfold Refusal in H; intuition discriminate|intros H; exfalso; now apply H]|intros H; exfalso; now apply H]).
  Qed.

  (** *** What a sequence of calls does to the tokenizer *)
  (** It only gets the special tokens that were added; every call adds some or none. *)
  Theorem C62_history : forall l w vocab ps sps adds, w_tok w = tok_new (model_from vocab) ps sps -> Forall (fun c => fst c <> setstate_) l -> Forall2 Adds l adds ->
    w_tok (snd (calls w l)) = tok_new (model_from vocab) ps (sps ++ List.concat adds).
  Proof.
    induction l as [|[m args] l IH]; intros w vocab ps sps adds Hw Hn Ha.
    - inversion Ha; subst. simpl. now rewrite app_nil_r.
    - inversion Ha as [|? a ? adds' H1 H2]; subst. inversion Hn as [|? ? Hm Hn']; subst. cbn [List.concat]. rewrite app_assoc. cbn [Py.calls fst] in *.
      assert (E : w_tok (snd (call w m args)) = tok_new (model_from vocab) ps (sps ++ a)).
      { inversion H1 as [v ? ss Hv HF|? Hr| |]; subst.
        - assert (Eg : get_vec get_str v = Return (map encode_string ss)) by (destruct Hv as [-> | ->]; unfold get_vec; cbn [items abind]; now apply get_strs).
          cbn [Py.call]. rewrite Eg. cbn [snd w_tok]. rewrite Hw. apply add_special_new.
        - rewrite (proj2 (C62_refused w add_special_tokens_ args) Hr). now rewrite app_nil_r.
        - rewrite app_nil_r. exact Hw.
        - rewrite app_nil_r, <- Hw. destruct m; try congruence; destruct args as [|v1 [|v2 args]]; try reflexivity. cbn [Py.call].
          destruct (get_str v1); try reflexivity. destruct (write_to _ _ _). reflexivity. }
      destruct (call w m args) as [an w1]. cbn [snd] in E. specialize (IH w1 vocab ps (sps ++ a) adds' E Hn' H2). destruct (calls w1 l) as [l1 w2]. exact IH.
  Qed.
  Theorem C62_history_exists : forall l, exists adds, Forall2 Adds l adds.
  Proof. induction l as [|c l (adds & IH)]; [exists []; constructor|]. destruct (adds_exist c) as (a & Ha). exists (a :: adds). now constructor. Qed.

  (** *** Round trips *)
  (** What encode returned decodes to the text, also after any other calls. *)
  Theorem C62_round_trip : forall w vocab sps s d v later adds, w_tok w = tok_new (model_from vocab) [] sps -> Forall scalar s ->
    fst (call w encode_ [PyStr s; d]) = Return v ->
    Forall (fun c => fst c <> setstate_) later -> Forall2 Adds later adds -> tok_fits vocab (sps ++ List.concat adds) ->
    fst (call (snd (calls w later)) decode_ [v; PyBool true]) = Return (PyStr s).
  Proof.
    intros w vocab sps s d v later adds Hw Hs He Hn Ha Hf. pose proof (fits_less _ _ Hf) as Hf0. cbn [Py.call Py.read fst get_str] in *.
    rewrite (proj2 (scalars_iff s) Hs) in He. cbn [abind] in He. destruct (get_f64 d) as [x| |]; try discriminate. cbn [abind] in He. rewrite Hw in He.
    destruct (tok_encode _ _ _ _ _ _) as [ids| | |] eqn:E; try discriminate. cbn [raise_err abind] in He. injection He as <-.
    assert (Hu : Utf8 (encode_string s)) by (exists s; auto).
    pose proof (C07_encode_decode _ _ _ _ Hf0 Hu E) as Hd. apply C11_decode_meaning in Hd; [|exact Hf0].
    apply (decodes_more (filter (fun x => if in_dec (list_eq_dec Byte.byte_eq_dec) x sps then false else true) (first_occurrences (List.concat adds)))) in Hd.
    rewrite <- (proj2 (C14_registered vocab [] sps (List.concat adds))) in Hd.
    rewrite (@C62_history later w vocab [] sps adds Hw Hn Ha). rewrite get_ids.
    - cbn [abind get_bool]. apply (C11_decode_meaning [] ids true _ Hf) in Hd. rewrite Hd. cbn [raise_err abind]. unfold of_str. now rewrite chars_of.
    - apply decodes_bound in Hd. eapply Forall_impl; [|exact Hd]. cbn beta. intros id Hid. destruct Hf as (_ & Hf & _). lia.
  Qed.

  (** *** Every call answers *)
  (** With arguments of the right types: the promised type, or one of a few exceptions; no panic, no endless loop.  Only encode needs that the special tokens
      are not empty and that the fuel suffices. *)
  Theorem C62_answers : forall codec w vocab ps sps m args, keeps_utf8 normalize -> (forall n, Permutation (sched n) (seq 0 n)) -> num_codec fmt_num num_val codec ->
    w_tok w = tok_new (model_from vocab) ps sps -> tok_fits vocab sps ->
    (m = encode_ \/ m = encode_batch_ -> Forall (fun sp => sp <> []) sps /\ Forall (fun v => Forall (fun s => List.length (encode_string s) < fuel) (texts_in v)) args) ->
    Forall2 Has (signature m) args ->
    (exists v, fst (call w m args) = Return v /\ Gives (result m) v) \/ (exists e, fst (call w m args) = Raise e /\ Complains m e).
  Proof.
    intros codec w vocab ps sps m args Hn Hsch Hcodec Hw Hf Hm HA.
    assert (U : forall s, Forall scalar s -> Utf8 (encode_string s)) by (intros s Hs; exists s; auto).
    assert (Hsp : Forall Utf8 (first_occurrences sps)) by (apply Forall_forall; intros x Hx; rewrite first_occurrences_In in Hx; destruct Hf as (_ & _ & Hf); rewrite Forall_forall in Hf; auto).
    assert (Hopt : forall T (f : T -> py) (o : option T) a, (forall x, o = Some x -> Gives a (f x)) -> Gives (ROptional a) (of_option f o)).
    { intros T f [x|] a H; [|exact I]. cbn [of_option]. specialize (H x eq_refl). cbn [Gives]. destruct (f x); auto; exact I. }
    assert (Hid : forall id, (id < N.of_nat (List.length vocab + List.length (first_occurrences sps)))%N -> Gives RId (of_id id)).
    { intros id H. destruct Hf as (_ & Hf & _). change (0 <= Z.of_N id < Z.of_N (2 ^ 32))%Z. lia. }
    assert (Hlt : forall id t, latest vocab id t -> (id < N.of_nat (List.length vocab + List.length (first_occurrences sps)))%N).
    { intros id t (H & _). unfold token_at in H. assert (N.to_nat id < List.length vocab) by (apply nth_error_Some; congruence). lia. }
    assert (Hks : forall k v, nth_error (first_occurrences sps) k = Some v -> (N.of_nat (List.length vocab + k) < N.of_nat (List.length vocab + List.length (first_occurrences sps)))%N).
    { intros k v H. assert (k < List.length (first_occurrences sps)) by (apply nth_error_Some; congruence). lia. }
    destruct m; cbn [signature] in HA;
      first [apply two_args in HA as (v1 & v2 & -> & H1 & H2)|apply one_arg in HA as (v1 & -> & H1)|apply no_args in HA as ->];
      cbn [Py.call Py.read fst result]; rewrite ?Hw.
    - (* encode *) destruct Hm as (Hne & Hm); [auto|]. destruct (get_str_ok _ H1) as (s & -> & Hs & ->). destruct (gets_ok _ gets_f64 H2) as (d & ->). cbn [abind].
      apply Forall_inv in Hm. apply Forall_inv in Hm.
      destruct (@C10_encode_ends normalize vocab ps sps fuel (rnd 0) (encode_string s) d Hn Hf Hne (U s Hs) Hm) as [(ids & E)|(n & E)]; rewrite E; cbn [raise_err abind].
      + left. eexists. split; [reflexivity|]. apply of_ids_list. eapply encode_ids_bound; [..|exact E]; eauto.
      + right. eexists. split; [reflexivity|]. apply complain_encode.
    - (* encode_ordinary *) destruct (get_str_ok _ H1) as (s & -> & Hs & ->). destruct (gets_ok _ gets_f64 H2) as (d & ->). cbn [abind].
      destruct (ordinary_answers normalize ps (rnd 0 0) (encode_string s) d Hf) as [(ids & E)|(n & E)]; rewrite E; cbn [raise_err abind].
      + left. eexists. split; [reflexivity|]. apply of_ids_list. eapply ordinary_ids_bound; [..|exact E]; eauto.
      + right. eexists. split; [reflexivity|]. apply complain_encode.
    - (* encode_batch *) destruct Hm as (Hne & Hm); [auto|]. destruct (get_strs_ok _ H1) as (ss & Hs & -> & Et). destruct (gets_ok _ gets_f64 H2) as (d & ->). cbn [abind].
      apply Forall_inv in Hm. rewrite Et in Hm.
      assert (HU : Forall Utf8 (map encode_string ss)) by (apply Forall_map; eapply Forall_impl; [exact U|exact Hs]).
      assert (HL : Forall (fun s => List.length s < fuel) (map encode_string ss)) by (apply Forall_map; exact Hm).
      pose proof (Hsch (List.length (map encode_string ss))) as HS.
      destruct (ok_or_not (encode_batch normalize fuel (tok_new (model_from vocab) ps sps) rnd (map encode_string ss) d (sched (List.length (map encode_string ss))))) as [(outs & E)|E].
      + rewrite E. cbn [raise_err abind]. left. eexists. split; [reflexivity|]. cbn [Gives]. apply Forall_map. apply C18_encode_batch_ok in E; [|exact HS].
        eapply (@forall2_seq_Forall _ _ _ _ _ _ 0); [|exact E]. intros i a o Hi Ho. apply of_ids_list. cbn [Nat.add] in Ho. rewrite (nth_error_nth _ _ _ Hi) in Ho.
        eapply encode_ids_bound; [exact Hn|exact Hf| | |exact Ho]; [rewrite Forall_forall in HU; apply HU|rewrite Forall_forall in HL; apply HL]; eapply nth_error_In; eauto.
      + destruct (@C18_encode_batch_error normalize vocab ps sps fuel rnd _ d _ Hn Hf Hne HU HL HS E) as (i & s & e & Hi & E1 & E2). rewrite E2. cbn [raise_err abind]. right. eexists. split; [reflexivity|].
        assert (Hin : In s (map encode_string ss)) by (eapply nth_error_In; eauto). rewrite Forall_forall in HU, HL.
        destruct (@C10_encode_ends normalize vocab ps sps fuel (rnd i) s d Hn Hf Hne (HU s Hin) (HL s Hin)) as [(ids & E')|(n & E')]; rewrite E' in E1; [discriminate|]. injection E1 as <-. apply complain_encode.
    - (* encode_ordinary_batch *) destruct (get_strs_ok _ H1) as (ss & Hs & -> & Et). destruct (gets_ok _ gets_f64 H2) as (d & ->). cbn [abind].
      pose proof (Hsch (List.length (map encode_string ss))) as HS.
      destruct (ok_or_not (encode_ordinary_batch normalize (tok_new (model_from vocab) ps sps) (fun i => rnd i 0) (map encode_string ss) d (sched (List.length (map encode_string ss))))) as [(outs & E)|E].
      + rewrite E. cbn [raise_err abind]. left. eexists. split; [reflexivity|]. cbn [Gives]. apply Forall_map. apply C18_encode_ordinary_batch_ok in E; [|exact HS].
        eapply (@forall2_seq_Forall _ _ _ _ _ _ 0); [|exact E]. intros i a o Hi Ho. apply of_ids_list. eapply ordinary_ids_bound; [exact Hf|exact Ho].
      + destruct (@C18_encode_ordinary_batch_error normalize vocab ps sps (fun i => rnd i 0) _ d _ Hf HS E) as (i & s & e & Hi & E1 & E2). rewrite E2. cbn [raise_err abind]. right. eexists. split; [reflexivity|].
        destruct (ordinary_answers normalize ps (rnd i 0) s d Hf) as [(ids & E')|(n & E')]; rewrite E' in E1; [discriminate|]. injection E1 as <-. apply complain_encode.
    - (* decode *) destruct (gets_ok _ (gets_vec gets_u32) H1) as (ids & ->). destruct (gets_ok _ gets_bool H2) as (incl & ->). cbn [abind].
      destruct (C11_decode_total ps ids incl Hf) as [(out & E)|(id & E)]; rewrite E; cbn [raise_err abind].
      + left. eexists. split; [reflexivity|]. apply of_str_text. exact (C12_decode_valid _ _ _ Hf E).
      + right. eexists. split; [reflexivity|]. apply complain_decode.
    - (* decode_batch *) destruct (gets_ok _ (gets_vec (gets_vec gets_u32)) H1) as (idss & ->). destruct (gets_ok _ gets_bool H2) as (incl & ->). cbn [abind].
      pose proof (Hsch (List.length idss)) as HS.
      destruct (ok_or_not (decode_batch (tok_new (model_from vocab) ps sps) idss incl (sched (List.length idss)))) as [(outs & E)|E].
      + rewrite E. cbn [raise_err abind]. left. eexists. split; [reflexivity|]. cbn [Gives]. apply Forall_map. apply C18_decode_batch_ok in E; [|exact HS].
        eapply (@forall2_seq_Forall _ _ _ _ _ _ 0); [|exact E]. intros i a o Hi Ho. apply of_str_text. exact (C12_decode_valid _ _ _ Hf Ho).
      + destruct (@C18_decode_batch_error vocab ps sps idss incl _ Hf HS E) as (i & s & e & Hi & E1 & E2). rewrite E2. cbn [raise_err abind]. right. eexists. split; [reflexivity|].
        destruct (C11_decode_total ps s incl Hf) as [(out & E')|(id & E')]; rewrite E' in E1; [discriminate|]. injection E1 as <-. apply complain_decode.
    - destruct (gets_ok _ (gets_vec gets_u8) H1) as (t & ->). cbn [abind]. left. eexists. split; [reflexivity|]. apply Hopt. intros id E.
      apply (C13_token_to_id _ _ _ Hf) in E as [(tk & HL & _)|(_ & k & -> & Hk)]; apply Hid; eauto.
    - destruct (gets_ok _ (gets_vec gets_u8) H1) as (t & ->). cbn [abind]. left. eexists. split; [reflexivity|]. apply Hopt. intros id E.
      destruct (@C13_base_special vocab ps sps id t (ST [] f0 false) Hf) as (_ & HB & _). apply HB in E as (tk & HL & _). apply Hid; eauto.
    - destruct (get_str_ok _ H1) as (s & -> & Hs & ->). cbn [abind]. left. eexists. split; [reflexivity|]. apply Hopt. intros id E.
      destruct (@C13_base_special vocab ps sps id (encode_string s) (ST [] f0 false) Hf) as (_ & _ & _ & HB). apply HB in E as (k & -> & Hk). apply Hid; eauto.
    - destruct (gets_ok _ gets_u32 H1) as (id & ->). cbn [abind]. left. eexists. split; [reflexivity|]. apply Hopt. intros x _. exact I.
    - destruct (gets_ok _ gets_u32 H1) as (id & ->). cbn [abind]. left. eexists. split; [reflexivity|]. apply Hopt. intros x _. split; exact I.
    - destruct (gets_ok _ gets_u32 H1) as (id & ->). cbn [abind]. left. eexists. split; [reflexivity|]. apply Hopt. intros x E.
      destruct (@C13_base_special vocab ps sps id x (ST [] f0 false) Hf) as (_ & _ & HB & _). apply HB in E as (k & _ & Hk). apply of_str_text. rewrite Forall_forall in Hsp. apply Hsp. eapply nth_error_In; eauto.
    - destruct (gets_ok _ gets_u32 H1) as (id & ->). cbn [abind]. left. eexists. split; [reflexivity|exact I].
    - destruct (gets_ok _ gets_u32 H1) as (id & ->). cbn [abind]. left. eexists. split; [reflexivity|exact I].
    - destruct (gets_ok _ (gets_vec gets_str) H1) as (l & ->). left. eexists. split; [reflexivity|exact I].
    - left. eexists. split; [reflexivity|]. cbn [Gives]. apply Forall_map. unfold special_tokens. rewrite tok_new_specials. eapply Forall_impl; [|exact Hsp]. exact of_str_text.
    - left. eexists. split; [reflexivity|]. cbn [Gives of_size]. lia.
    - left. eexists. split; [reflexivity|]. cbn [Gives of_size]. lia.
    - left. eexists. split; [reflexivity|]. cbn [Gives of_size]. lia.
    - destruct (gets_ok _ gets_str H1) as (l & ->). destruct (write_to _ _ _). left. eexists. split; [reflexivity|exact I].
    - destruct (gets_ok _ gets_str H1) as (l & ->). cbn [abind]. left. eexists. split; [reflexivity|]. apply of_ids_list. apply Forall_map, Forall_forall. intros [id len] Hin. cbn [fst].
      rewrite tok_new_model in Hin. destruct Hf as (Hf1 & Hf2 & _). apply (C16_search_latest _ _ _ Hf1) in Hin as (t & Ht). apply Hlt in Ht. lia.
    - left. eexists. split; [reflexivity|]. apply of_str_text. apply (written_Utf8 Hcodec). rewrite tok_new_specials. exact Hsp.
    - left. eexists. split; [reflexivity|exact I].
    - destruct v1; try contradiction. unfold from_slice. destruct (utf8_ok s); [destruct (from_str_total num_val s) as [(t & ->)|E]; [|rewrite E]|].
      + left. eexists. split; [reflexivity|exact I].
      + right. eexists. split; reflexivity.
      + right. eexists. split; reflexivity.
  Qed.

  (** *** The tokens of the ids *)
  (** They make up the text that was encoded, the special tokens as they are and the rest as the processors leave it. *)
  Theorem C62_tokens : forall w vocab ps sps s d v pcs, keeps_utf8 normalize -> w_tok w = tok_new (model_from vocab) ps sps -> tok_fits vocab sps ->
    Forall scalar s -> List.length (encode_string s) < fuel -> Pieces (first_occurrences sps) (encode_string s) pcs ->
    fst (call w encode_ [PyStr s; d]) = Return v ->
    exists ids tokens, v = PyList ids /\ Forall2 (fun id token => fst (call w id_to_token_ [id]) = Return (PyBytes token)) ids tokens /\
      List.concat tokens = List.concat (map (fun pc => match pc with Special k => nth k (first_occurrences sps) [] | Plain p => preprocess_all normalize ps p end) pcs).
  Proof.
    intros w vocab ps sps s d v pcs Hn Hw Hf Hs Hl HP He. cbn [Py.call Py.read fst get_str] in *. assert (Hu : Utf8 (encode_string s)) by (exists s; auto).
    rewrite (proj2 (scalars_iff s) Hs) in He. cbn [abind] in He. destruct (get_f64 d) as [x| |]; try discriminate. cbn [abind] in He. rewrite Hw in *.
    destruct (tok_encode _ _ _ _ _ _) as [ids| | |] eqn:E; try discriminate. cbn [raise_err abind] in He. injection He as <-.
    destruct (encode_tokens _ _ _ Hn Hf Hu Hl HP E) as (vs & HF & EV). pose proof (encode_ids_bound _ _ _ Hn Hf Hu Hl E) as HB.
    exists (map of_id ids), vs. split; [reflexivity|]. split; [|exact EV]. clear -HF HB. induction HF as [|id v ids vs H _ IH]; [constructor|]. inversion HB; subst. cbn [map]. constructor; [|auto].
    replace (get_u32 (of_id id)) with (Return id); [cbn [abind]; now rewrite H|]. unfold get_u32, get_int, of_id.
    replace (_ && _) with true by (change (2 ^ 32)%Z with (Z.of_N (2 ^ 32)); lia). now rewrite N2Z.id.
  Qed.

  (** *** What decode answers *)
  Theorem C62_decode : forall w vocab ps sps ids incl, w_tok w = tok_new (model_from vocab) ps sps -> tok_fits vocab sps -> Forall (fun id => (id < 2 ^ 32)%N) ids ->
    (exists s, fst (call w decode_ [of_ids ids; PyBool incl]) = Return (PyStr s) /\ Forall scalar s /\ Decodes vocab (first_occurrences sps) incl ids (encode_string s)) \/
    (exists id num, first_beyond (N.of_nat (List.length vocab + List.length (first_occurrences sps))) ids id /\ Numeral id num /\
       fst (call w decode_ [of_ids ids; PyBool incl]) = Raise (TokenGeeXError (Some (B "token id " ++ num ++ B " is out of bounds")))).
  Proof.
    intros w vocab ps sps ids incl Hw Hf Hb. cbn [Py.call Py.read fst get_bool]. rewrite Hw, get_ids by exact Hb. cbn [abind].
    destruct (C11_decode_total ps ids incl Hf) as [(out & E)|(id & E)]; rewrite E; cbn [raise_err abind].
    - left. destruct (C12_decode_valid _ _ _ Hf E) as (cs & Hcs & Eo). exists cs. unfold of_str. rewrite Eo, chars_of by exact Hcs. split; [reflexivity|]. split; [exact Hcs|].
      rewrite <- Eo. now apply (C11_decode_meaning ps ids incl out Hf).
    - right. apply (C11_decode_error ps ids incl _ Hf) in E as (id' & E & HF). injection E as <-. exists id, (decimal id). split; [exact HF|]. split; [apply decimal_spec|reflexivity].
  Qed.
  (** *** What the methods that only ask answer *)
  Theorem C62_knows : forall w vocab ps sps m args v, w_tok w = tok_new (model_from vocab) ps sps -> tok_fits vocab sps ->
    Knows vocab (first_occurrences sps) m args v -> call w m args = (Return v, w).
  Proof.
    intros w vocab ps sps m args v Hw Hf H. set (t := tok_new (model_from vocab) ps sps) in *.
    assert (Hs : tk_specials t = first_occurrences sps) by apply tok_new_specials.
    pose proof Hf as (Hfv & Hb & Hu).
    assert (HP : forall id, _) by (intros id; exact (C13_partition ps id Hf)). cbv zeta in HP. fold t in HP.
    assert (HS : forall id v tk, _) by (intros id v0 tk; exact (C13_base_special ps id v0 tk Hf)). cbv zeta in HS. fold t in HS.
    assert (HI : forall id v, _) by (intros id v0; exact (C13_id_to_token ps id v0 Hf)). fold t in HI.
    assert (HT : forall id v, _) by (intros id v0; exact (C13_token_to_id ps id v0 Hf)). fold t in HT.
    assert (E1 : base_vocab_size t = List.length vocab) by apply (HP 0%N). assert (E2 : special_vocab_size t = List.length (first_occurrences sps)) by apply (HP 0%N).
    assert (E3 : tok_vocab_size t = List.length vocab + List.length (first_occurrences sps)) by (rewrite <- E1, <- E2; apply (HP 0%N)).
    destruct H.
    all: try match goal with H : Id _ _ |- _ => pose proof (get_id H) as EI end.
    all: try match goal with H : Bytes _ _ |- _ => pose proof (get_bytes H) as EI end.
    all: try match goal with H : Text ?a _ |- call _ _ [?a] = _ => pose proof (get_text H) as EI end.
    all: cbn [Py.call Py.read]; rewrite ?EI, ?Hw; cbn [abind]; f_equal.
    - unfold of_size. now rewrite E3.
    - unfold of_size. now rewrite E1.
    - unfold of_size. now rewrite E2.
    - f_equal. f_equal. unfold special_tokens. rewrite Hs. clear - H. induction H as [|a s l sps' H _ IH]; [reflexivity|]. cbn [map]. rewrite (text_of H). now f_equal.
    - f_equal. f_equal. apply eq_iff_eq_true. rewrite (proj1 (HP id)), H0, E1. lia.
    - f_equal. f_equal. apply eq_iff_eq_true. rewrite (proj1 (proj2 (HP id))), H0, E1, E3. lia.
    - rewrite (proj2 (HI id (st_value t0))); eauto.
    - rewrite (proj2 (HI id s)); auto. right. exists j. split; auto. lia.
    - rewrite (proj2 (proj1 (proj2 (proj2 (HP id))))); auto. rewrite E3. lia.
    - rewrite (proj2 (proj1 (HS id [] t0))); auto.
    - destruct (id_to_base_token t id) as [tk|] eqn:E; [|reflexivity]. apply (proj1 (HS id [] tk)) in E. unfold token_at in E. assert (N.to_nat id < List.length vocab) by (apply nth_error_Some; congruence). lia.
    - rewrite (proj2 (proj1 (proj2 (proj2 (HS id s (ST [] f0 false)))))). now rewrite (text_of H2). exists j. split; auto. lia.
    - destruct (id_to_special_token t id) as [s|] eqn:E; [|reflexivity]. apply (proj1 (proj2 (proj2 (HS id s (ST [] f0 false))))) in E as (j & Ej & E).
      assert (j < List.length (first_occurrences sps)) by (apply nth_error_Some; congruence). lia.
    - rewrite (proj2 (proj1 (proj2 (HS id (st_value t0) t0)))); eauto.
    - destruct (base_token_to_id t s) as [id|] eqn:E; [|reflexivity]. apply (proj1 (proj2 (HS id s (ST [] f0 false)))) in E as (tk & (E & _) & Es). exfalso. eapply H0; [|exact Es].
      eapply nth_error_In; eauto.
    - rewrite (proj2 (proj2 (proj2 (proj2 (HS (N.of_nat (List.length vocab + j)) s (ST [] f0 false)))))); eauto. unfold of_option, of_id, int. now rewrite nat_N_Z.
    - destruct (special_token_to_id t s) as [id|] eqn:E; [|reflexivity]. apply (proj2 (proj2 (proj2 (HS id s (ST [] f0 false))))) in E as (j & _ & E). exfalso. apply H0. eapply nth_error_In; eauto.
    - rewrite (proj2 (HT id (st_value t0))); eauto.
    - rewrite (proj2 (HT (N.of_nat (List.length vocab + j)) s)); eauto 6. unfold of_option, of_id, int. now rewrite nat_N_Z.
    - destruct (tok_token_to_id t s) as [id|] eqn:E; [|reflexivity]. exfalso. apply (HT id s) in E as [(tk & (E & _) & Es)|(_ & j & _ & E)].
      + eapply H0; [|exact Es]. eapply nth_error_In; eauto.
      + apply H1. eapply nth_error_In; eauto.
    - f_equal. unfold of_ids. f_equal. unfold t. rewrite tok_new_model, map_map.
      assert (E : l = map (fun p => (fst p, N.to_nat (snd p))) (common_prefix_search (model_from vocab) s)).
      { apply sorted_same; auto.
        - rewrite map_map. cbn [snd]. pose proof (C17_search_sorted s Hfv) as HX. rewrite <- (map_map snd N.to_nat).
          induction HX as [|n l0 _ IH HF]; cbn [map]; constructor; auto. rewrite Forall_map. eapply Forall_impl; [|exact HF]. cbn. intros; lia.
        - intros id len. rewrite H1, in_map_iff. split.
          + intros (tk & r & G1 & G2 & G3 & ->). exists (id, N.of_nat (List.length (st_value tk))). cbn [fst snd]. rewrite Nat2N.id. split; auto.
            apply (C17_search_sound_complete s id _ Hfv). eauto 6.
          + intros ([id' n] & [= <- <-] & G). apply (C17_search_sound_complete s _ _ Hfv) in G as (tk & r & G1 & G2 & G3 & ->). rewrite Nat2N.id. eauto 6. }
      rewrite E, map_map. apply map_ext. reflexivity.
  Qed.
  Theorem C62_knows_all : forall vocab sps m args, fits vocab -> Forall Utf8 sps -> asks m = true -> Forall2 Has (signature m) args -> exists v, Knows vocab sps m args v.
  Proof.
    intros vocab sps m args Hf Hu Hm Ha. destruct m; try discriminate Hm; cbn [signature] in Ha.
    all: repeat match goal with H : Forall2 Has [] _ |- _ => inversion H; subst; clear H | H : Forall2 Has (_ :: _) _ |- _ => inversion H; subst; clear H end.
    all: try match goal with H : Has TId _ |- _ => apply has_id in H as (id & HI) end.
    all: try match goal with H : Has TText _ |- _ => apply has_text in H as (s & HI) end.
    all: try match goal with H : Has (TSeq TByte) _ |- _ => apply has_bytes in H as (s & HI) end.
    all: try (assert (HB : (exists id t, latest vocab id t /\ st_value t = s) \/ forall t, In t vocab -> st_value t <> s)
      by (destruct (token_to_id (model_from vocab) s) as [id|] eqn:E; [left; apply (C16_token_to_id_latest s id Hf) in E; eauto|right; intros t Ht <-;
          destruct (EncodeProofs.latest_exists _ _ Ht) as (id & t' & G1 & G2); rewrite (proj2 (C16_token_to_id_latest (st_value t) id Hf)) in E; [discriminate|eauto]])).
    all: try (assert (HN : (exists j, nth_error sps j = Some s) \/ ~ In s sps)
      by (destruct (in_dec (list_eq_dec Byte.byte_eq_dec) s sps) as [G|G]; [left; apply In_nth_error; auto|right; auto])).
    - destruct HB as [(id & t & G1 & <-)|G]; [eexists; eapply k_of_token; eauto|]. destruct HN as [(j & Hj)|Hj]; eexists; [eapply k_of_token_special|eapply k_of_token_none]; eauto.
    - destruct HB as [(id & t & G1 & <-)|G]; eexists; [eapply k_of_base|eapply k_of_base_none]; eauto.
    - destruct HN as [(j & Hj)|Hj]; eexists; [eapply k_of_special|eapply k_of_special_none]; eauto.
    - destruct (nth_error vocab (N.to_nat id)) as [t|] eqn:E; [eexists; eapply k_id_base; eauto|]. apply nth_error_None in E.
      destruct (nth_error sps (N.to_nat id - List.length vocab)) as [sp|] eqn:E2; eexists; [eapply k_id_special; eauto; lia|eapply k_id_none; eauto]. apply nth_error_None in E2. lia.
    - destruct (nth_error vocab (N.to_nat id)) as [t|] eqn:E; eexists; [eapply k_base; eauto|eapply k_base_none; eauto]. now apply nth_error_None.
    - destruct (le_lt_dec (List.length vocab) (N.to_nat id)) as [G|G]; [|eexists; eapply k_special_none; eauto].
      destruct (nth_error sps (N.to_nat id - List.length vocab)) as [sp|] eqn:E2.
      + eexists. eapply k_special; eauto. lia. apply of_text. rewrite Forall_forall in Hu. apply Hu. eapply nth_error_In; eauto.
      + eexists. eapply k_special_none; eauto. apply nth_error_None in E2. lia.
    - eexists. eapply (k_is_special _ _ (b := (List.length vocab <=? N.to_nat id) && (N.to_nat id <? List.length vocab + List.length sps))); eauto. rewrite andb_true_iff, Nat.leb_le, Nat.ltb_lt. tauto.
    - eexists. eapply (k_is_base _ _ (b := (N.to_nat id <? List.length vocab))); eauto. rewrite Nat.ltb_lt. tauto.
    - exists (PyList (map of_str sps)). constructor. induction Hu; constructor; auto. now apply of_text.
    - eexists; constructor.
    - eexists; constructor.
    - eexists; constructor.
    - eexists. apply (@k_search vocab sps _ s (map (fun p => (fst p, N.to_nat (snd p))) (common_prefix_search (model_from vocab) s))); auto.
      + rewrite map_map. cbn [snd]. pose proof (C17_search_sorted s Hf) as HX. rewrite <- (map_map snd N.to_nat).
        induction HX as [|n l0 _ IH HF]; cbn [map]; constructor; auto. rewrite Forall_map. eapply Forall_impl; [|exact HF]. cbn. intros; lia.
      + intros id len. rewrite in_map_iff. split.
        * intros ([id' n] & [= <- <-] & G). apply (C17_search_sound_complete s _ _ Hf) in G as (tk & r & G1 & G2 & G3 & ->). rewrite Nat2N.id. eauto 6.
        * intros (tk & r & G1 & G2 & G3 & ->). exists (id, N.of_nat (List.length (st_value tk))). cbn [fst snd]. rewrite Nat2N.id. split; auto.
          apply (C17_search_sound_complete s id _ Hf). eauto 6.
  Qed.
End C62.
Print Assumptions C62_refused.
Print Assumptions C62_history.
Print Assumptions C62_round_trip.
Print Assumptions C62_answers.
Print Assumptions C62_tokens.
Print Assumptions C62_decode.
Print Assumptions C62_knows.
Print Assumptions C62_knows_all.

(** ** C63 *)
Section C63.
  Variable normalize : unicode_form -> bytes -> bytes.
  Variable fuel : nat.
  Variable rnd : nat -> nat -> nat -> f64.
  Variable sched : nat -> list nat.
  Variable fmt_num : f64 -> bytes.
  Variable num_val : bytes -> option f64.
  Variable write_to : files -> bytes -> bytes -> bool * option bytes.
  Notation call := (call normalize fuel rnd sched fmt_num num_val write_to).
  Notation calls := (calls normalize fuel rnd sched fmt_num num_val write_to).

  (** *** Files *)
  (** The answer of save is None, whatever became of the file; the tokenizer and the other files stay. *)
  Theorem C63_save : forall w s, Forall scalar s -> fst (call w save_ [PyStr s]) = Return PyNone /\
    w_tok (snd (call w save_ [PyStr s])) = w_tok w /\
    w_files (snd (call w save_ [PyStr s])) (encode_string s) = snd (write_to (w_files w) (encode_string s) (save_contents fmt_num (w_tok w))) /\
    (forall p, p <> encode_string s -> w_files (snd (call w save_ [PyStr s])) p = w_files w p).
  Proof.
    intros w s Hs. cbn [Py.call get_str]. rewrite (proj2 (scalars_iff s) Hs). destruct (write_to _ _ _) as [ok file]. cbn [fst snd w_tok w_files].
    split; [reflexivity|]. split; [reflexivity|]. split.
    - rewrite (proj2 (bytes_eqb_eq _ _) eq_refl). reflexivity.
    - intros p Hp. destruct (bytes_eqb p (encode_string s)) eqn:E; [|reflexivity]. apply bytes_eqb_eq in E. contradiction.
  Qed.
  (** So a failure of save shows only when the file is read. *)
  Theorem C63_save_reports_failure_refuted : forall w s, Forall scalar s -> write_to (w_files w) (encode_string s) (save_contents fmt_num (w_tok w)) = (false, None) ->
    fst (call w save_ [PyStr s]) = Return PyNone /\
    py_from_file num_val (w_files (snd (call w save_ [PyStr s]))) [PyStr s] = Raise (TokenGeeXError None).
  Proof.
    intros w s Hs Hw. destruct (C63_save w Hs) as (H1 & _ & H2 & _). split; [exact H1|]. cbn [py_from_file get_str]. rewrite (proj2 (scalars_iff s) Hs). cbn [abind].
    rewrite H2, Hw. reflexivity.
  Qed.
  (** What was written is read back. *)
  Theorem C63_save_load : forall codec w s vocab ps sps, Forall scalar s -> w_tok w = tok_new (model_from vocab) ps sps -> num_codec fmt_num num_val codec ->
    Forall unescaped sps -> Forall Utf8 sps -> Forall (fun tk => f_is_finite (st_score tk) = true) vocab ->
    snd (write_to (w_files w) (encode_string s) (save_contents fmt_num (w_tok w))) = Some (save_contents fmt_num (w_tok w)) ->
    py_from_file num_val (w_files (snd (call w save_ [PyStr s]))) [PyStr s] =
    Return (tok_new (model_from (map (fun tk => ST (st_value tk) (codec (st_score tk)) (st_keep tk)) vocab)) ps sps).
  Proof.
    intros codec w s vocab ps sps Hs Hw Hc Hu HU Hv Hwr. destruct (C63_save w Hs) as (_ & _ & H2 & _). cbn [py_from_file get_str]. rewrite (proj2 (scalars_iff s) Hs). cbn [abind].
    rewrite H2, Hwr, Hw. destruct (C19_round_trip ps Hc Hu Hv) as (_ & _ & H). rewrite (H HU). reflexivity.
  Qed.
  (** A file that is no tokenizer, or no file at all, is an error of the class TokenGeeXError; nothing panics. *)
  Theorem C63_load_total : forall fs s, Forall scalar s ->
    ((exists t, py_from_file num_val fs [PyStr s] = Return t) \/ py_from_file num_val fs [PyStr s] = Raise (TokenGeeXError None)) /\
    ((exists t, py_from_str num_val [PyStr s] = Return t) \/ py_from_str num_val [PyStr s] = Raise (TokenGeeXError None)).
  Proof.
    intros fs s Hs. cbn [py_from_file py_from_str get_str]. rewrite (proj2 (scalars_iff s) Hs). cbn [abind]. split.
    - unfold from_file. destruct (fs _) as [c|]; [|right; reflexivity]. destruct (utf8_ok c); [|right; reflexivity].
      destruct (from_str_total num_val c) as [(t & ->)| ->]; [left; eexists; reflexivity|right; reflexivity].
    - destruct (from_str_total num_val (encode_string s)) as [(t & ->)| ->]; [left; eexists; reflexivity|right; reflexivity].
  Qed.

  (** *** Texts *)
  Theorem C63_text_round_trip : forall codec w v vocab ps sps, w_tok w = tok_new (model_from vocab) ps sps -> num_codec fmt_num num_val codec ->
    Forall unescaped sps -> Forall Utf8 sps -> Forall (fun tk => f_is_finite (st_score tk) = true) vocab ->
    fst (call w to_string_ []) = Return v ->
    py_from_str num_val [v] = Return (tok_new (model_from (map (fun tk => ST (st_value tk) (codec (st_score tk)) (st_keep tk)) vocab)) ps sps).
  Proof.
    intros codec w v vocab ps sps Hw Hc Hu HU Hv H. cbn [Py.call Py.read fst] in H. injection H as <-. rewrite Hw.
    assert (HT : Utf8 (to_string fmt_num (tok_new (model_from vocab) ps sps))).
    { apply (written_Utf8 Hc). rewrite tok_new_specials. apply Forall_forall. intros x Hx. rewrite first_occurrences_In in Hx. rewrite Forall_forall in HU. auto. }
    destruct HT as (cs & Hcs & E). unfold of_str. rewrite E, chars_of by exact Hcs. cbn [py_from_str get_str]. rewrite (proj2 (scalars_iff cs) Hcs). cbn [abind]. rewrite <- E.
    destruct (C19_round_trip ps Hc Hu Hv) as (H & _). rewrite H. reflexivity.
  Qed.

  (** *** States *)
  (** The state of one tokenizer makes any other one equal to it... *)
  Theorem C63_state_round_trip : forall codec w w' v vocab ps sps, w_tok w = tok_new (model_from vocab) ps sps -> num_codec fmt_num num_val codec ->
    Forall unescaped sps -> Forall Utf8 sps -> Forall (fun tk => f_is_finite (st_score tk) = true) vocab ->
    fst (call w getstate_ []) = Return v ->
    call w' setstate_ [v] = (Return PyNone, World (tok_new (model_from (map (fun tk => ST (st_value tk) (codec (st_score tk)) (st_keep tk)) vocab)) ps sps) (w_files w')).
  Proof.
    intros codec w w' v vocab ps sps Hw Hc Hu HU Hv H. cbn [Py.call Py.read fst] in H. injection H as <-. rewrite Hw. cbn [Py.call]. unfold from_slice.
    rewrite (proj2 (utf8_ok_spec _)).
    - destruct (C19_round_trip ps Hc Hu Hv) as (H & _). now rewrite H.
    - apply (written_Utf8 Hc). rewrite tok_new_specials. apply Forall_forall. intros x Hx. rewrite first_occurrences_In in Hx. rewrite Forall_forall in HU. auto.
  Qed.
  (** ... unless a special token needs an escape or a score is not finite: then the state is refused, and the other tokenizer stays what it is. *)
  Theorem C63_state_lost : forall codec w w' v vocab ps sps, w_tok w = tok_new (model_from vocab) ps sps -> num_codec fmt_num num_val codec ->
    ~ (Forall unescaped sps /\ Forall (fun tk => f_is_finite (st_score tk) = true) vocab) ->
    fst (call w getstate_ []) = Return v -> call w' setstate_ [v] = (Raise PyException, w').
  Proof.
    intros codec w w' v vocab ps sps Hw Hc Hn H. cbn [Py.call Py.read fst] in H. injection H as <-. rewrite Hw. cbn [Py.call]. unfold from_slice.
    destruct (utf8_ok _); [|reflexivity]. destruct (C19_unreadable ps Hc Hn) as (H & _). now rewrite H.
  Qed.
  Theorem C63_setstate_raises : forall w v e, fst (call w setstate_ [v]) = Raise e -> snd (call w setstate_ [v]) = w.
  Proof. intros w v e. cbn [Py.call]. destruct v; try reflexivity. destruct (from_slice num_val s); try reflexivity. discriminate. Qed.
  (** pickle, which is what the states are for (lines 196 and 208), fails for every tokenizer. *)
  Theorem C63_pickle_refuted : forall w, exists v, dumps normalize fuel rnd sched fmt_num w = Return v /\
    loads normalize fuel rnd sched fmt_num num_val write_to v = Raise TypeError.
  Proof. intros w. eexists. split; reflexivity. Qed.
End C63.
Print Assumptions C63_save.
Print Assumptions C63_save_load.
Print Assumptions C63_load_total.
Print Assumptions C63_text_round_trip.
Print Assumptions C63_state_round_trip.
Print Assumptions C63_state_lost.
Print Assumptions C63_pickle_refuted.

(** ** Cases *)
Definition ex_world ps : world := World (ex_tok ps) (fun _ => None).
Definition ex_write (full : bool) (fs : files) (path contents : bytes) : bool * option bytes := if full then (false, None) else (true, Some contents).
Definition ex_call full := call ex_norm 50 (fun _ _ _ => f0) (fun n => rev (seq 0 n)) ex_fmt ex_num (ex_write full).
Definition ex_calls full := calls ex_norm 50 (fun _ _ _ => f0) (fun n => rev (seq 0 n)) ex_fmt ex_num (ex_write full).
(** "a<s>b", then the special token "ab" is added and "ab" encoded: first as two tokens or one, then as a special token. *)
Definition ex_later : list (method * list py) := [(vocab_size_, []); (add_special_tokens_, [PyList [PyStr [97; 98]%N; PyInt 3]]); (add_special_tokens_, [PyList [PyStr [97; 98]%N]]); (save_, [PyStr [97]%N])].
Example C62_example :
  fst (ex_call true (ex_world []) encode_ [PyStr [97; 60; 115; 62; 98]%N; PyFloat f0]) = Return (PyList [PyInt 5; PyInt 10; PyInt 1]) /\
  fst (ex_calls true (ex_world []) ex_later) = [Return (PyInt 12); Raise TypeError; Return PyNone; Return PyNone] /\
  Forall2 Adds ex_later [[]; []; [[x61; x62]]; []] /\ tok_fits ex_vocab2 (ex_sps ++ List.concat [[]; []; [[x61; x62]]; []]) /\
  fst (ex_call true (snd (ex_calls true (ex_world []) ex_later)) decode_ [PyList [PyInt 5; PyInt 10; PyInt 1]; PyBool true]) = Return (PyStr [97; 60; 115; 62; 98]%N) /\
  fst (ex_call true (snd (ex_calls true (ex_world []) ex_later)) encode_ [PyStr [97; 98]%N; PyFloat f0]) = Return (PyList [PyInt 12]).
Proof.
  split; [vm_compute; reflexivity|]. split; [vm_compute; reflexivity|]. split.
  { constructor; [apply adds_other; discriminate|]. constructor.
    { apply adds_refused. cbn [signature]. rewrite has_one. cbn [Has]. intros H. inversion H as [|? ? _ H']; subst. apply Forall_inv in H'. exact H'. }
    constructor; [|constructor; [apply adds_other; discriminate|constructor]].
    eapply adds_tokens; [left; instantiate (1 := [[97; 98]%N]); reflexivity| |reflexivity]. constructor; [|constructor]. apply scalars_iff. reflexivity. }
  split. { destruct ex_tok_fits as (H1 & H2 & H3). split; [exact H1|]. split; [vm_compute; reflexivity|]. apply Forall_app. split; [exact H3|]. constructor; [|constructor]. apply utf8_ok_spec. reflexivity. }
  split; vm_compute; reflexivity.
Qed.
(** An id that is no id, a text that is not UTF-8, a number too large, a wrong type, a missing argument; a text without tokens. *)
Example C62_errors :
  map (fun c => fst (ex_call true (ex_world []) (fst c) (snd c)))
    [(decode_, [PyList [PyInt 5; PyInt 12]; PyBool true]); (encode_, [PyStr [0xD800]%N; PyFloat f0]); (decode_, [PyList [PyInt (2 ^ 32)]; PyBool true]);
     (decode_, [PyStr [97]%N; PyBool true]); (encode_, [PyStr [97]%N]); (encode_, [PyStr [97; 122]%N; PyFloat f0]);
     (encode_batch_, [PyTuple [PyStr [97]%N; PyStr [122]%N]; PyInt 0])] =
  [Raise (TokenGeeXError (Some (B "token id 12 is out of bounds"))); Raise UnicodeEncodeError; Raise OverflowError; Raise TypeError; Raise TypeError;
   Raise (TokenGeeXError (Some (B "no path to position 2/2"))); Raise (TokenGeeXError (Some (B "no path to position 1/1")))].
Proof. vm_compute. reflexivity. Qed.
Example C62_answers_example : keeps_utf8 ex_norm /\ (forall n, Permutation (rev (seq 0 n)) (seq 0 n)) /\ num_codec ex_fmt ex_num (fun x => x) /\
  Forall (fun sp => sp <> []) ex_sps /\ Forall2 Has (signature encode_batch_) [PyTuple [PyStr [97]%N; PyStr [122]%N]; PyInt 0] /\
  Forall (fun v => Forall (fun s => List.length (encode_string s) < 50) (texts_in v)) [PyTuple [PyStr [97]%N; PyStr [122]%N]; PyInt 0].
Proof.
  split; [intros f s H; exact H|]. split; [intros n; apply Permutation_sym, Permutation_rev|]. split; [exact ex_codec|]. split; [repeat constructor; discriminate|]. split.
  - cbn [signature]. rewrite has_two. split; [|reflexivity]. repeat constructor; apply scalars_iff; reflexivity.
  - repeat constructor; apply Nat.ltb_lt; reflexivity.
Qed.
Example C63_example :
  fst (ex_call true (ex_world []) save_ [PyStr [97]%N]) = Return PyNone /\ fst (ex_call false (ex_world []) save_ [PyStr [97]%N]) = Return PyNone /\
  py_from_file ex_num (w_files (snd (ex_call true (ex_world []) save_ [PyStr [97]%N]))) [PyStr [97]%N] = Raise (TokenGeeXError None) /\
  (exists t, py_from_file ex_num (w_files (snd (ex_call false (ex_world [Crlf]) save_ [PyStr [97]%N]))) [PyStr [97]%N] = Return t /\ tk_processors t = [Crlf]) /\
  (exists v, fst (ex_call true (World (tok_new (model_from ex_vocab2) [] ex_bad) (fun _ => None)) getstate_ []) = Return v /\
     fst (ex_call true (ex_world []) setstate_ [v]) = Raise PyException).
Proof.
  split; [vm_compute; reflexivity|]. split; [vm_compute; reflexivity|]. split; [vm_compute; reflexivity|]. split.
  - exists (ex_tok [Crlf]). split; [|reflexivity]. change (raise_err (from_file ex_num (Some (save_contents ex_fmt (ex_tok [Crlf])))) = Return (ex_tok [Crlf])). now rewrite ex_loads.
  - eexists. split; [reflexivity|]. vm_compute. reflexivity.
Qed.
(** The example vocabulary: 10 tokens, two special ones; "a" is token 0 and 5; True is the number 1. *)
Example C62_knows_example : tok_fits ex_vocab2 ex_sps /\
  map (fun c => fst (ex_call true (ex_world []) (fst c) (snd c)))
    [(vocab_size_, []); (base_vocab_size_, []); (special_vocab_size_, []); (is_base_, [PyInt 9]); (is_base_, [PyInt 10]); (is_special_, [PyInt 9]); (is_special_, [PyInt 10]);
     (is_special_, [PyInt 12]); (id_to_token_, [PyBool true]); (id_to_token_, [PyBool false]); (id_to_token_, [PyInt 10]); (id_to_token_, [PyInt 12]); (token_to_id_, [PyBytes [x61]]);
     (token_to_id_, [PyList [PyInt 97]]); (special_token_to_id_, [PyStr [60; 115; 62]%N]); (id_to_special_token_, [PyInt 10]); (common_prefix_search_, [PyStr [97; 98; 98]%N])] =
  map (@Return py) [PyInt 12; PyInt 10; PyInt 2; PyBool true; PyBool false; PyBool false; PyBool true; PyBool false; PyBytes [x62]; PyBytes [x61]; PyBytes [x3c; x73; x3e]; PyNone; PyInt 5;
     PyInt 5; PyInt 10; PyStr [60; 115; 62]%N; PyList [PyInt 5; PyInt 2]].
Proof. split; [exact ex_tok_fits|]. vm_compute. reflexivity. Qed.
