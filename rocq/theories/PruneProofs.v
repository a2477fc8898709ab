(** Facts about pruning (src/prune.rs). *)
From Coq Require Import Permutation Sorted.
From Verif Require Import Base BaseProofs F64 F64Proofs Trie Model ModelProofs SpecModel EncodeProofs Sort SortProofs Par ParProofs Lattice SpecLattice LatticeProofs
  PopulateProofs PropLattice NbestProofs PropNbest PropGenerate Prune.
Set Implicit Arguments.
Local Open Scope nat_scope.

(** ** M-step *)
Lemma digamma_step k x : In k [0; 1; 2; 3; 4; 5; 6]%Z -> fleb (f64_of_Z k) x = true -> fleb (f64_of_Z (k + 1)) (fadd x f1) = true.
Proof.
  intros Hk H. apply fleb_trans with (b := fadd (f64_of_Z k) f1).
  - destruct Hk as [<-|[<-|[<-|[<-|[<-|[<-|[<-|[]]]]]]]]; vm_compute; reflexivity.
  - apply fadd_mono_l; [vm_compute; reflexivity|exact H].
Qed.
Lemma digamma_stop x : fleb (f64_of_Z 7) x = true -> fltb x (f64_of_Z 7) = false.
Proof. intros H. destruct (fltb x (f64_of_Z 7)) eqn:E; [|reflexivity]. apply fltb_irrefl_rev in E. congruence. Qed.
Lemma digamma_loop_ends n : forall x r fuel, n <= 7 -> n <= fuel -> fleb (f64_of_Z (7 - Z.of_nat n)) x = true -> exists y, digamma_loop fuel x r = Ok y.
Proof.
  induction n as [|n IH]; intros x r fuel Hn Hf Hx.
  - destruct fuel; cbn [digamma_loop]; rewrite (digamma_stop _ Hx); eauto.
  - destruct fuel as [|fuel]; [lia|]. cbn [digamma_loop]. destruct (fltb x (f64_of_Z 7)); [|eauto]. apply IH; try lia.
    replace (7 - Z.of_nat n)%Z with (7 - Z.of_nat (S n) + 1)%Z by lia. apply digamma_step; [|exact Hx].
    replace (7 - Z.of_nat (S n))%Z with (Z.of_nat (6 - n)) by lia. assert (H : 6 - n <= 6) by lia. revert H. generalize (6 - n). intros j Hj.
    do 7 (destruct j as [|j]; [simpl; tauto|]). lia.
Qed.
Lemma digamma_ends ln fuel x : 7 <= fuel -> f_is_nan x = true \/ fleb f0 x = true -> exists y, digamma ln fuel x = Ok y.
Proof.
  intros Hf Hx. unfold digamma. assert (H : exists y, digamma_loop fuel x f0 = Ok y).
  { destruct Hx as [Hx|Hx]; [|apply digamma_loop_ends with (n := 7); [lia|lia|exact Hx]].
    destruct x; try discriminate. destruct fuel; [lia|]. exists (fnan, f0). reflexivity. }
  destruct H as [[x' r] ->]. cbn [bind]. eauto.
Qed.

Lemma m_select_spec freqs : forall vocab, length freqs = length vocab -> exists ids,
  StronglySorted lt ids /\
  (forall i, In i ids <-> exists f t, nth_error freqs i = Some f /\ nth_error vocab i = Some t /\ (st_keep t = true \/ fltb f fhalf = false)) /\
  Forall2 (fun i t' => exists f t, nth_error freqs i = Some f /\ nth_error vocab i = Some t /\ t' = clone_with_score t (fmax f fhalf)) ids (m_select freqs vocab).
Proof.
  induction freqs as [|f freqs IH]; intros [|t vocab] Hl; try discriminate.
  - exists []. split; [constructor|]. split; [|constructor]. intros [|i]; split; [contradiction|intros (? & ? & ? & _); discriminate|contradiction|intros (? & ? & ? & _); discriminate].
  - injection Hl as Hl. destruct (IH vocab Hl) as (ids & HS & HI & HF).
    assert (HS' : StronglySorted lt (map S ids)).
    { clear - HS. induction HS as [|i ids HS IH HF]; [constructor|]. cbn [map]. constructor; [exact IH|]. rewrite Forall_map. eapply Forall_impl; [|exact HF]. simpl. lia. }
    assert (HF' : Forall2 (fun i t' => exists f0 t0, nth_error (f :: freqs) i = Some f0 /\ nth_error (t :: vocab) i = Some t0 /\ t' = clone_with_score t0 (fmax f0 fhalf)) (map S ids) (m_select freqs vocab)).
    { clear - HF. induction HF as [|i x ids l H _ IH]; [constructor|]. cbn [map]. constructor; [exact H|exact IH]. }
    assert (HI' : forall i, In (S i) (map S ids) <-> exists f0 t0, nth_error (f :: freqs) (S i) = Some f0 /\ nth_error (t :: vocab) (S i) = Some t0 /\ (st_keep t0 = true \/ fltb f0 fhalf = false)).
    { intros i. simpl. rewrite <- HI. rewrite in_map_iff. split; [intros (j & Hj & Hin); congruence|eauto]. }
    assert (H0 : ~ In 0 (map S ids)) by (intros H; apply in_map_iff in H as (j & Hj & _); discriminate).
    cbn [m_select]. destruct (fltb f fhalf && negb (st_keep t)) eqn:E.
    + exists (map S ids). split; [exact HS'|]. split; [|exact HF']. intros [|i]; [|apply HI']. split; [tauto|]. simpl. intros (f0 & t0 & [= <-] & [= <-] & H).
      apply andb_true_iff in E as [E1 E2]. rewrite E1 in H. apply negb_true_iff in E2. destruct H; congruence.
    + exists (0 :: map S ids). split; [|split].
      * constructor; [exact HS'|]. rewrite Forall_map. apply Forall_forall. lia.
      * intros [|i]; [|rewrite <- HI'; simpl; intuition discriminate]. split; [|simpl; auto]. intros _. exists f, t. split; [reflexivity|]. split; [reflexivity|].
        apply andb_false_iff in E as [E|E]; [auto|left]. now apply negb_false_iff in E.
      * constructor; [|exact HF']. exists f, t. auto.
Qed.

Lemma m_scores_spec ln fuel logsum toks : forall scores, m_scores ln fuel logsum toks = Ok scores ->
  Forall2 (fun t s => exists d, digamma ln fuel (st_score t) = Ok d /\ s = fsub d logsum) toks scores.
Proof.
  induction toks as [|t toks IH]; intros scores H; cbn [m_scores] in H; [injection H as <-; constructor|].
  apply bind_Ok in H as (d & Hd & H). apply bind_Ok in H as (rest & Hr & H). injection H as <-. constructor; eauto.
Qed.
Lemma m_scores_ends ln fuel logsum toks : 7 <= fuel -> Forall (fun t => fleb f0 (st_score t) = true) toks -> exists scores, m_scores ln fuel logsum toks = Ok scores.
Proof.
  intros Hf. induction 1 as [|t toks Ht _ IH]; [simpl; eauto|]. cbn [m_scores]. destruct (digamma_ends ln _ Hf (or_intror Ht)) as (d & ->). cbn [bind].
  destruct IH as (scores & ->). cbn [bind]. eauto.
Qed.
Lemma with_scores_spec toks scores : length toks = length scores ->
  Forall2 (fun ts t' => t' = clone_with_score (fst ts) (snd ts)) (combine toks scores) (with_scores toks scores).
Proof. revert scores. induction toks as [|t toks IH]; intros [|s scores] H; try discriminate; constructor; [reflexivity|]. apply IH. now injection H. Qed.

Lemma fmax_half f : fleb fhalf (fmax f fhalf) = true.
Proof.
  unfold fmax. destruct (f_is_nan f) eqn:En; [reflexivity|]. destruct (fltb f fhalf) eqn:E; [reflexivity|].
  rewrite fltb_fleb in E by (auto; reflexivity). now apply negb_false_iff in E.
Qed.
Lemma fadd_nonneg a b : fleb f0 a = true -> fleb f0 b = true -> fleb f0 (fadd a b) = true.
Proof.
  intros Ha Hb. destruct (BinarySingleNaN.is_finite b) eqn:Fb.
  - apply fleb_trans with (b := fadd f0 b); [|now apply fadd_mono_l]. apply fleb_trans with (b := b); [exact Hb|]. clear - Fb Hb.
    destruct b as [[]| | |[]]; try discriminate; try reflexivity. unfold fadd. simpl. apply fleb_refl. reflexivity.
  - destruct b as [|[]| |]; try discriminate. destruct a as [|[]| |]; try discriminate; reflexivity.
Qed.
Lemma m_select_nonneg freqs vocab : Forall (fun t => fleb f0 (st_score t) = true) (m_select freqs vocab).
Proof.
  revert vocab. induction freqs as [|f freqs IH]; intros [|t vocab]; try constructor. cbn [m_select]. destruct (_ && _); [apply IH|]. constructor; [|apply IH].
  unfold clone_with_score. cbn [st_score]. apply fleb_trans with (b := fhalf); [reflexivity|apply fmax_half].
Qed.
Lemma sum_nonneg toks : forall x, fleb f0 x = true -> Forall (fun t => fleb f0 (st_score t) = true) toks -> fleb f0 (fold_left (fun x t => fadd x (st_score t)) toks x) = true.
Proof. induction toks as [|t toks IH]; intros x Hx H; [exact Hx|]. inversion H; subst. simpl. apply IH; [now apply fadd_nonneg|assumption]. Qed.

Lemma Forall2_len {A B} (R : A -> B -> Prop) l l' : Forall2 R l l' -> length l = length l'.
Proof. induction 1; simpl; congruence. Qed.
Lemma Forall2_In_l {A B} (R : A -> B -> Prop) l l' a : Forall2 R l l' -> In a l -> exists b, In b l' /\ R a b.
Proof. induction 1 as [|x y l l' Hxy _ IH]; [contradiction|]. intros [H|H]; [subst; exists y; split; [now left|exact Hxy]|]. destruct (IH H) as (b & Hb & HR). exists b. split; [now right|exact HR]. Qed.
Lemma finite_cases x : (f_is_nan x || f_is_infinite x = false) <-> f_is_finite x = true.
Proof. destruct x; simpl; split; congruence. Qed.

Lemma m_step_spec ln fuel m freqs v : m_step ln fuel m freqs = Ok v ->
  length freqs = vocab_size m /\ exists ids total,
  StronglySorted lt ids /\
  (forall i, In i ids <-> exists f t, nth_error freqs i = Some f /\ nth_error (m_vocab m) i = Some t /\ (st_keep t = true \/ fltb f fhalf = false)) /\
  Forall2 (fun i t' => exists f t d, nth_error freqs i = Some f /\ nth_error (m_vocab m) i = Some t /\ digamma ln fuel (fmax f fhalf) = Ok d /\
    t' = ST (st_value t) (fsub d total) (st_keep t) /\ f_is_finite (fsub d total) = true) ids v /\
  exists kept, Forall2 (fun i x => exists f, nth_error freqs i = Some f /\ x = fmax f fhalf) ids kept /\ digamma ln fuel (fold_left fadd kept f0) = Ok total.
Proof.
  unfold m_step. destruct (Nat.eqb_spec (vocab_size m) (length freqs)) as [Hl|]; [|discriminate]. intros H. split; [auto|].
  apply bind_Ok in H as (total & Ht & H). apply bind_Ok in H as (scores & Hs & H). destruct (existsb _ scores) eqn:Ee; [discriminate|]. injection H as <-.
  destruct (m_select_spec freqs (m_vocab m) (eq_sym Hl)) as (ids & HS & HI & HF). exists ids, total. split; [exact HS|]. split; [exact HI|].
  apply m_scores_spec in Hs. assert (Hfin : forall s, In s scores -> f_is_finite s = true).
  { intros s Hin. apply finite_cases. destruct (f_is_nan s || f_is_infinite s) eqn:E; [|reflexivity]. assert (Hx : existsb (fun x => f_is_nan x || f_is_infinite x) scores = true) by (apply existsb_exists; eauto). congruence. }
  assert (Hw : forall alt, Forall2 (fun t s => exists d, digamma ln fuel (st_score t) = Ok d /\ s = fsub d total) alt scores ->
    Forall2 (fun i t' => exists f t, nth_error freqs i = Some f /\ nth_error (m_vocab m) i = Some t /\ t' = clone_with_score t (fmax f fhalf)) ids alt ->
    Forall2 (fun i t' => exists f t d, nth_error freqs i = Some f /\ nth_error (m_vocab m) i = Some t /\ digamma ln fuel (fmax f fhalf) = Ok d /\
      t' = ST (st_value t) (fsub d total) (st_keep t) /\ f_is_finite (fsub d total) = true) ids (with_scores alt scores)).
  { clear - Hfin. revert ids. induction scores as [|s scores IH]; intros ids alt H1 H2.
    - inversion H1; subst. inversion H2; subst. constructor.
    - inversion H1 as [|t ? alt' ? (d & Hd & ->) H1']; subst. inversion H2 as [|i ? ids' ? (f & t0 & Hf & Ht & ->) H2']; subst. cbn [with_scores]. constructor; [|apply IH; auto; intros; apply Hfin; now right].
      exists f, t0, d. split; [exact Hf|]. split; [exact Ht|]. split; [exact Hd|]. split; [reflexivity|]. apply Hfin. now left. }
  split; [apply Hw; assumption|]. exists (map st_score (m_select freqs (m_vocab m))). split.
  - clear - HF. induction HF as [|i t' ids l (f & t & Hf & _ & ->) _ IH]; [constructor|]. cbn [map]. constructor; [|exact IH]. exists f. auto.
  - rewrite <- Ht. f_equal. generalize f0. generalize (m_select freqs (m_vocab m)). induction l as [|t l IH]; intros x; [reflexivity|]. cbn [map fold_left]. apply IH.
Qed.

Lemma m_step_total ln fuel m freqs : 7 <= fuel -> length freqs = vocab_size m ->
  (exists v, m_step ln fuel m freqs = Ok v) \/ m_step ln fuel m freqs = Panic.
Proof.
  intros Hf Hl. unfold m_step. rewrite Hl, Nat.eqb_refl. assert (Hn := m_select_nonneg freqs (m_vocab m)).
  destruct (digamma_ends ln _ Hf (or_intror (sum_nonneg _ (eq_refl : fleb f0 f0 = true) Hn))) as (total & ->). cbn [bind].
  destruct (m_scores_ends ln total Hf Hn) as (scores & ->). cbn [bind]. destruct (existsb _ scores); eauto.
Qed.

(** ** E-step *)
Lemma zip_add_length {A} (add : A -> A -> A) accs : forall xs, length (zip_add add accs xs) = length accs.
Proof. induction accs as [|a accs IH]; intros [|x xs]; simpl; auto. Qed.
Lemma zip_adds_length {A} (add : A -> A -> A) ls : forall accs, length (fold_left (zip_add add) ls accs) = length accs.
Proof. induction ls as [|l ls IH]; intros accs; [reflexivity|]. simpl. now rewrite IH, zip_add_length. Qed.
Lemma e_step_length exp ln threads c m samples freqs : e_step_result exp ln threads c m samples (Ok freqs) -> length freqs = vocab_size m.
Proof. intros H. inversion H; subst. now rewrite zip_adds_length, repeat_length. Qed.

(** ** Counting *)
Lemma count_ids_spec ids : forall freqs freqs', count_ids ids freqs = Ok freqs' ->
  length freqs' = length freqs /\ forall i, i < length freqs -> nth i freqs' 0 = nth i freqs 0 + count_occ N.eq_dec ids (N.of_nat i).
Proof.
  induction ids as [|id ids IH]; intros freqs freqs' H; cbn [count_ids] in H; [injection H as <-; split; [reflexivity|intros; simpl; lia]|].
  apply bind_Ok in H as (x & Hx & H). apply bind_Ok in H as (f1 & Hs & H). apply store_inv in Hs as [Hlt ->]. destruct (IH _ _ H) as [HL HN]. rewrite length_update in *.
  split; [exact HL|]. intros i Hi. rewrite HN by exact Hi. apply index_inv in Hx. rewrite nth_update by lia. cbn [count_occ].
  destruct (N.eq_dec id (N.of_nat i)) as [->|Hne].
  - rewrite Nat2N.id, Nat.eqb_refl in *. rewrite (nth_error_nth _ _ 0 Hx). lia.
  - destruct (Nat.eqb_spec i (N.to_nat id)); [lia|]. reflexivity.
Qed.
Lemma count_ids_ok ids : forall freqs, Forall (fun id => N.to_nat id < length freqs) ids -> exists freqs', count_ids ids freqs = Ok freqs'.
Proof.
  induction ids as [|id ids IH]; intros freqs H; [simpl; eauto|]. inversion H as [|? ? H1 H2]; subst. cbn [count_ids].
  destruct (nth_error_lt _ H1) as (x & Hx). rewrite (index_Some _ _ Hx). cbn [bind]. rewrite store_ok by exact H1. cbn [bind]. apply IH. now rewrite length_update.
Qed.
Definition encodings (m : model) (samples : list bytes) (idss : list (list N)) : Prop := Forall2 (fun s ids => encode m (fun _ => f0) s f0 = Ok ids) samples idss.
Lemma count_samples_spec m samples : forall freqs freqs', count_samples m samples freqs = Ok freqs' -> exists idss, encodings m samples idss /\
  length freqs' = length freqs /\ forall i, i < length freqs -> nth i freqs' 0 = nth i freqs 0 + count_occ N.eq_dec (concat idss) (N.of_nat i).
Proof.
  induction samples as [|s samples IH]; intros freqs freqs' H; cbn [count_samples] in H.
  - injection H as <-. exists []. split; [constructor|]. split; [reflexivity|]. intros; simpl; lia.
  - apply bind_Ok in H as (ids & Hi & H). apply bind_Ok in H as (f1 & Hc & H). destruct (count_ids_spec _ _ Hc) as [L1 N1]. destruct (IH _ _ H) as (idss & HE & L2 & N2).
    exists (ids :: idss). split; [now constructor|]. split; [congruence|]. intros i Hlt. rewrite N2, N1 by lia. cbn [concat]. rewrite count_occ_app. lia.
Qed.
Lemma zip_add_nth accs : forall xs i, length accs = length xs -> nth i (zip_add Nat.add accs xs) 0 = nth i accs 0 + nth i xs 0.
Proof. induction accs as [|a accs IH]; intros [|x xs] [|i] H; try discriminate; simpl in *; auto. Qed.
Lemma zip_adds_nth n ls : Forall (fun l => length l = n) ls -> forall accs i, length accs = n ->
  nth i (fold_left (zip_add Nat.add) ls accs) 0 = nth i accs 0 + list_sum (map (fun l => nth i l 0) ls).
Proof.
  induction 1 as [|l ls Hl _ IH]; intros accs i Ha; [simpl; lia|]. cbn [fold_left map]. rewrite IH by (now rewrite zip_add_length). rewrite zip_add_nth by lia. simpl. lia.
Qed.
Lemma list_sum_perm l l' : Permutation l l' -> list_sum l = list_sum l'.
Proof. induction 1; simpl; lia. Qed.
Lemma Forall2_nth {A B} (R : A -> B -> Prop) l : forall l', length l = length l' -> (forall i a b, nth_error l i = Some a -> nth_error l' i = Some b -> R a b) -> Forall2 R l l'.
Proof.
  induction l as [|a l IH]; intros [|b l'] HL H; try discriminate; constructor; [exact (H 0 a b eq_refl eq_refl)|]. apply IH; [now injection HL|]. intros i. exact (H (S i)).
Qed.
Lemma par_chunk_pos threads n f : 1 <= par_chunk_size threads n f.
Proof. unfold par_chunk_size. lia. Qed.
Lemma count_result_spec threads m samples freqs : count_result threads m samples (Ok freqs) -> exists idss, encodings m samples idss /\
  length freqs = vocab_size m /\ forall i, i < vocab_size m -> nth i freqs 0 = count_occ N.eq_dec (concat idss) (N.of_nat i).
Proof.
  intros H. inversion H as [locals order cs HL Hc HP E| |]; subst. clear H.
  assert (HF : Forall2 (fun chunk local => count_chunk m chunk = Ok local) cs locals) by (apply Forall2_nth; [lia|exact Hc]).
  assert (HX : exists idss, encodings m (concat cs) idss /\ Forall (fun l => length l = vocab_size m) locals /\
    forall i, i < vocab_size m -> list_sum (map (fun l => nth i l 0) locals) = count_occ N.eq_dec (concat idss) (N.of_nat i)).
  { clear - HF. induction HF as [|chunk local cs locals Hc _ (idss & HE & HL & HN)]; [exists []; split; [constructor|]; split; [constructor|reflexivity]|].
    apply count_samples_spec in Hc as (ids1 & HE1 & HL1 & HN1). rewrite repeat_length in *. exists (ids1 ++ idss). cbn [concat]. split; [now apply Forall2_app|].
    split; [now constructor|]. intros i Hi. cbn [map list_sum fold_right]. rewrite concat_app, count_occ_app, <- HN by exact Hi. rewrite HN1 by exact Hi. rewrite nth_repeat. reflexivity. }
  destruct HX as (idss & HE & HLs & HN). subst cs. rewrite chunks_concat in HE by apply par_chunk_pos. exists idss. split; [exact HE|].
  split; [now rewrite zip_adds_length, repeat_length|]. intros i Hi.
  assert (HLo : Forall (fun l => length l = vocab_size m) order) by (apply Forall_forall; intros l Hl; rewrite Forall_forall in HLs; apply HLs, (Permutation_in _ (Permutation_sym HP) Hl)).
  rewrite (zip_adds_nth HLo) by (now rewrite repeat_length). rewrite nth_repeat. cbn [Nat.add]. rewrite <- HN by exact Hi. apply list_sum_perm. symmetry. now apply Permutation_map.
Qed.

(** ** Choosing *)
Section Choose.
  Variables (ln : f64 -> f64) (vocab : list scored_token) (freqs : list nat) (judged : list (bool * list N)) (num_alternatives num_samples : nat).
  Definition fixed_at (i : nat) (t : scored_token) : Prop := nth_error vocab i = Some t /\
    (st_keep t = true \/ exists n always, nth_error freqs i = Some n /\ nth_error judged i = Some (always, []) /\ (n <> 0 \/ always = true)).
  Definition candidate_at (i : nat) (x : f64) : Prop := exists t n always alts, nth_error vocab i = Some t /\ st_keep t = false /\
    nth_error freqs i = Some n /\ nth_error judged i = Some (always, alts) /\ n <> 0 /\ alts <> [] /\
    loss ln freqs num_alternatives num_samples n alts = Ok x /\ f_is_normal x = true.
  Definition dropped_at (i : nat) : Prop := exists t always alts, nth_error vocab i = Some t /\ st_keep t = false /\
    nth_error freqs i = Some 0 /\ nth_error judged i = Some (always, alts) /\ (always = false \/ alts <> []).

  Lemma sift_spec toks : forall before pruned cands p' c', vocab = before ++ toks ->
    sift ln freqs judged num_alternatives num_samples (length before) toks pruned cands = Ok (p', c') ->
    exists fx ts cs ds, p' = pruned ++ ts /\ c' = cands ++ cs /\ Forall2 fixed_at fx ts /\ Forall (fun c => candidate_at (fst c) (snd c)) cs /\
      Forall dropped_at ds /\ Permutation (fx ++ map fst cs ++ ds) (seq (length before) (length toks)).
  Proof.
    induction toks as [|t toks IH]; intros before pruned cands p' c' Hv H; cbn [sift] in H.
    - injection H as <- <-. exists [], [], [], []. rewrite !app_nil_r. repeat split; constructor.
    - assert (Hi : nth_error vocab (length before) = Some t) by (rewrite Hv, nth_error_app2, Nat.sub_diag by lia; reflexivity).
      assert (Hv' : vocab = (before ++ [t]) ++ toks) by (now rewrite <- app_assoc).
      assert (HLb : length before + 1 = length (before ++ [t])) by (rewrite app_length; reflexivity). rewrite HLb in H.
      assert (Hfix : forall p'' c'', sift ln freqs judged num_alternatives num_samples (length (before ++ [t])) toks (pruned ++ [t]) cands = Ok (p'', c'') -> fixed_at (length before) t ->
        exists fx ts cs ds, p'' = pruned ++ ts /\ c'' = cands ++ cs /\ Forall2 fixed_at fx ts /\ Forall (fun c => candidate_at (fst c) (snd c)) cs /\
        Forall dropped_at ds /\ Permutation (fx ++ map fst cs ++ ds) (seq (length before) (length (t :: toks)))).
      { intros p'' c'' Hs Hf. destruct (IH _ _ _ _ _ Hv' Hs) as (fx & ts & cs & ds & -> & -> & H1 & H2 & H3 & H4). exists (length before :: fx), (t :: ts), cs, ds.
        rewrite <- app_assoc. repeat split; auto. cbn [length seq app]. constructor. replace (S (length before)) with (length (before ++ [t])) by lia. exact H4. }
      assert (Hdrop : forall p'' c'', sift ln freqs judged num_alternatives num_samples (length (before ++ [t])) toks pruned cands = Ok (p'', c'') -> dropped_at (length before) ->
        exists fx ts cs ds, p'' = pruned ++ ts /\ c'' = cands ++ cs /\ Forall2 fixed_at fx ts /\ Forall (fun c => candidate_at (fst c) (snd c)) cs /\
        Forall dropped_at ds /\ Permutation (fx ++ map fst cs ++ ds) (seq (length before) (length (t :: toks)))).
      { intros p'' c'' Hs Hf. destruct (IH _ _ _ _ _ Hv' Hs) as (fx & ts & cs & ds & -> & -> & H1 & H2 & H3 & H4). exists fx, ts, cs, (length before :: ds).
        repeat split; auto. cbn [length seq]. rewrite app_assoc, <- Permutation_middle, <- app_assoc. constructor. replace (S (length before)) with (length (before ++ [t])) by lia. exact H4. }
      destruct (st_keep t) eqn:Ek.
      + apply Hfix; [exact H|]. split; [exact Hi|now left].
      + apply bind_Ok in H as (n & Hn & H). apply bind_Ok in H as ([always alts] & Hj & H). apply index_inv in Hn, Hj.
        destruct (Nat.eqb_spec n 0) as [->|Hn0]; cbn [andb negb] in H.
        * destruct always; cbn [negb] in H; [|apply Hdrop; [exact H|]; exists t, false, alts; auto 8].
          destruct alts as [|a alts]; [apply Hfix; [exact H|]; split; [exact Hi|right]; exists 0, true; auto|].
          apply Hdrop; [exact H|]. exists t, true, (a :: alts). repeat split; auto. right. discriminate.
        * destruct alts as [|a alts]; [apply Hfix; [exact H|]; split; [exact Hi|right]; exists n, always; auto|].
          apply bind_Ok in H as (x & Hx & H). destruct (f_is_normal x) eqn:Ex; [|discriminate].
          destruct (IH _ _ _ _ _ Hv' H) as (fx & ts & cs & ds & -> & -> & H1 & H2 & H3 & H4). exists fx, ts, ((length before, x) :: cs), ds.
          rewrite <- app_assoc. repeat split; auto.
          -- constructor; [|exact H2]. exists t, n, always, (a :: alts). simpl. repeat split; auto. discriminate.
          -- cbn [length seq map fst app]. rewrite <- Permutation_middle. constructor. replace (S (length before)) with (length (before ++ [t])) by lia. exact H4.
  Qed.
End Choose.

Lemma fill_spec vocab size cands : forall pruned r, fill vocab size cands pruned = Ok r -> exists taken rest ts,
  cands = taken ++ rest /\ Forall2 (fun c t => nth_error vocab (fst c) = Some t) taken ts /\ r = pruned ++ ts /\ (rest = [] \/ length r = size) /\ (length pruned <= size -> length r <= size).
Proof.
  induction cands as [|[id x] cands IH]; intros pruned r H; cbn [fill] in H.
  - injection H as <-. exists [], [], []. rewrite (app_nil_r pruned). repeat split; auto.
  - destruct (Nat.eqb_spec (length pruned) size) as [He|Hn].
    + injection H as <-. exists [], ((id, x) :: cands), []. rewrite (app_nil_r pruned). repeat split; auto; lia.
    + apply bind_Ok in H as (t & Ht & H). apply index_inv in Ht. destruct (IH _ _ H) as (taken & rest & ts & -> & H1 & -> & H2 & H3). exists ((id, x) :: taken), rest, (t :: ts).
      rewrite <- app_assoc in *. repeat split; auto. intros Hl. apply H3. rewrite app_length. simpl. lia.
Qed.

Lemma choose_spec ln s1 s2 c m num_samples judged freqs v : valid_sorter s1 -> valid_sorter s2 -> choose ln s1 s2 c m num_samples judged freqs = Ok v ->
  exists fx chosen rest ds tf tc,
    Permutation (fx ++ map fst chosen ++ map fst rest ++ ds) (seq 0 (vocab_size m)) /\
    Forall2 (fixed_at (m_vocab m) freqs judged) fx tf /\ Forall2 (fun x t => nth_error (m_vocab m) (fst x) = Some t) chosen tc /\ Permutation (tf ++ tc) v /\
    StronglySorted (fun a b => fleb (st_score b) (st_score a) = true) v /\
    Forall (fun x => candidate_at ln (m_vocab m) freqs judged (vocab_size m) num_samples (fst x) (snd x)) (chosen ++ rest) /\
    Forall (dropped_at (m_vocab m) freqs judged) ds /\
    (forall x y, In x chosen -> In y rest -> fleb (snd y) (snd x) = true) /\
    (rest = [] \/ length v = pruned_size c m) /\ (length fx <= pruned_size c m -> length v <= pruned_size c m).
Proof.
  intros H1 H2 H. unfold choose in H. apply bind_Ok in H as ([pruned cands] & Hs & H). apply bind_Ok in H as (sorted & Hso & H). apply bind_Ok in H as (full & Hf & H).
  destruct (@sift_spec ln (m_vocab m) freqs judged (vocab_size m) num_samples (m_vocab m) [] [] [] pruned cands eq_refl Hs) as (fx & ts & cs & ds & -> & -> & HF & HC & HD & HP).
  cbn [app] in *. apply sort_by_f64_desc_ok in Hso as [P1 S1]; [|exact H1]. destruct (fill_spec _ _ _ _ Hf) as (taken & rest & tc & -> & HT & -> & Hr & Hle).
  apply sort_by_f64_desc_ok in H as [P2 S2]; [|exact H2]. assert (HLv := Permutation_length P2). exists fx, taken, rest, ds, ts, tc. repeat split; auto.
  - rewrite <- HP. apply Permutation_app_head. rewrite app_assoc, <- map_app. apply Permutation_app_tail, Permutation_map. now symmetry.
  - apply Forall_forall. intros x Hx. rewrite Forall_forall in HC. apply HC, (Permutation_in _ (Permutation_sym P1) Hx).
  - intros x y Hx Hy. exact (StronglySorted_app _ _ S1 x y Hx Hy).
  - rewrite <- HLv. exact Hr.
  - rewrite <- HLv. intros Hl. apply Hle. now rewrite <- (Forall2_len HF).
Qed.

(** ** Judging *)
(** There are few ways to spell the suffixes of [value]. *)
Definition few_cuts (vocab : list scored_token) (value : bytes) : Prop :=
  forall L, NoDup L -> Forall (fun ids => exists a b, value = a ++ b /\ Cut vocab ids b) L -> (N.of_nat (length L) <= 50000)%N.
(** What is found out about a token: its alternatives spell it with two or more tokens; without any, [always] false says
    that it can be spelled in that way, too. *)
Definition judgement (vocab : list scored_token) (value : bytes) (j : bool * list N) : Prop :=
  ((snd j <> [] -> fst j = true /\ 2 <= length (snd j) /\ Cut vocab (snd j) value) /\
  (fst j = false -> exists ids, 2 <= length ids /\ Cut vocab ids value)) /\
  (few_cuts vocab value -> (exists id, Cut vocab [id] value) -> (exists ids, 2 <= length ids /\ Cut vocab ids value) -> snd j <> [] \/ fst j = false).

Definition room (vocab : list scored_token) : Prop := fits vocab /\ (N.of_nat (length vocab) < 2 ^ 32 - 1)%N.

Section Judge.
  Variables (exp ln : f64 -> f64) (vocab : list scored_token).
  Hypothesis Hroom : room vocab.
  Let A := f64_arith exp ln.
  Let m := model_from vocab.

  Lemma occurs_lt s (e : span f64) : Occurs (fun x => x) vocab s e -> (s_id e < bos_id)%N /\ 1 <= s_len e.
  Proof.
    intros HO. split; [|apply (Occurs_inside HO)]. destruct HO as (t & b & a & [Ht _] & _). unfold token_at in Ht.
    assert (H : N.to_nat (s_id e) < length vocab) by (apply nth_error_Some; congruence). unfold bos_id. destruct Hroom. lia.
  Qed.
  Lemma spans_length (E : list (span f64)) p q ks : Path E p q ks -> length (spans_of E ks) = length ks.
  Proof. intros H. apply Path_spans in H. symmetry. now apply Forall2_len in H. Qed.

  Lemma judge_sound s l k l1 k1 l2 nbests : Lat A s [] l -> populate_nodes A (fun x => x) m (fun _ => f0) f0 l k = Ok (l1, k1) ->
    nbest_result A l1 2 (Ok (l2, nbests)) ->
    (snd (judge nbests) <> [] -> fst (judge nbests) = true /\ 2 <= length (snd (judge nbests)) /\ Cut vocab (snd (judge nbests)) s) /\
    (fst (judge nbests) = false -> exists ids, 2 <= length ids /\ Cut vocab ids s).
  Proof.
    intros HL HP HN. destruct (@C38_no_dropout f64 A (fun x => x) vocab (fun _ => f0) f0 s l k (proj1 Hroom) eq_refl HL) as (l' & E & HP' & HLE & HND & HE). fold m in HP'. rewrite HP in HP'. injection HP' as <- ->.
    assert (Hne : non_empty E) by (apply Forall_forall; intros e He; apply HE in He; now apply occurs_lt in He).
    assert (Hid : Forall (fun e => (s_id e < bos_id)%N) E) by (apply Forall_forall; intros e He; apply HE in He; now apply occurs_lt in He).
    destruct (C41_complete_distinct HLE Hne Hid (Nat.le_refl 2) HN) as (l3 & paths & kss & HO & _ & Hmap & HF & HNK & _). injection HO as <- <-.
    assert (Hcut : forall ks, Path E 0 (length s) ks -> Cut vocab (ids_of E ks) s) by (intros ks Hks; apply (Path_Cut (fun e He => proj1 (HE e) He) Hks); lia).
    assert (Hids : forall path ks, Path E 0 (length s) ks -> map span_of path = spans_of E ks -> length path = length ks /\ map (fun n => n_token_id n) path = ids_of E ks /\ length (ids_of E ks) = length ks).
    { intros path ks Hks Hm. assert (HLk := spans_length Hks). split; [rewrite <- HLk, <- Hm; now rewrite map_length|]. unfold ids_of. split; [|now rewrite map_length]. rewrite <- Hm, map_map. reflexivity. }
    destruct nbests as [|best [|second others]]; [now split|now split|].
    destruct kss as [|k1' [|k2' kss]]; try discriminate. cbn [map] in Hmap. injection Hmap as Hm1 Hm2 _.
    inversion HF as [|? ? HP1 HF']; subst. inversion HF' as [|? ? HP2 _]; subst.
    destruct (Hids _ _ HP1 Hm1) as (L1 & I1 & LL1). destruct (Hids _ _ HP2 Hm2) as (L2 & I2 & LL2). unfold judge. rewrite L1, I2. split; cbn [fst snd].
    - destruct (Nat.eqb_spec (length k1') 1) as [H1|]; [|congruence]. intros _. rewrite H1. split; [reflexivity|]. split; [|now apply Hcut]. rewrite LL2.
      destruct k1' as [|ka [|? ?]]; try discriminate. inversion HP1 as [|ka' ea ? ? Hka Hpa Hx]; subst. inversion Hpa; subst.
      destruct k2' as [|kb [|kc k2']]; [exfalso| |simpl; lia].
      + inversion HP2 as [? He|]; subst. destruct (@occurs_lt s ea) as [_ Hl]; [apply HE, (nth_error_In _ _ Hka)|]. unfold s_end in *. lia.
      + exfalso. inversion HP2 as [|kb' eb ? ? Hkb Hpb Hy]; subst. inversion Hpb; subst. inversion HNK as [|? ? Hnot _]; subst. apply Hnot. left. f_equal.
        assert (Oa : Occurs (fun x => x) vocab s ea) by apply HE, (nth_error_In _ _ Hka). assert (Ob : Occurs (fun x => x) vocab s eb) by apply HE, (nth_error_In _ _ Hkb).
        assert (Hsp : s_pos eb = s_pos ea /\ s_id eb = s_id ea).
        { split; [congruence|]. destruct Oa as (ta & ba & aa & Ha & _ & Hsa & Hpa' & Hla & _). destruct Ob as (tb & bb & ab & Hb & _ & Hsb & Hpb' & Hlb & _).
          assert (Va : st_value ta = st_value tb); [|eapply latest_unique; eauto].
          assert (Za : ba = [] /\ aa = []) by (unfold s_end in *; apply (f_equal (@length _)) in Hsa; rewrite !app_length in Hsa; split; apply length_zero_iff_nil; lia).
          assert (Zb : bb = [] /\ ab = []) by (unfold s_end in *; apply (f_equal (@length _)) in Hsb; rewrite !app_length in Hsb; split; apply length_zero_iff_nil; lia).
          destruct Za as [-> ->], Zb as [-> ->]. rewrite app_nil_r in *. cbn [app] in *. congruence. }
        destruct Hsp as [Hsp Hsi]. eapply (proj1 (NoDup_nth_error _) HND).
        * rewrite map_length. apply nth_error_Some. congruence.
        * rewrite (map_nth_error _ _ _ Hka), (map_nth_error _ _ _ Hkb). congruence.
    - intros Hf. apply negb_false_iff, Nat.ltb_lt in Hf. exists (ids_of E k1'). split; [lia|now apply Hcut].
  Qed.
  (** A path is known by its ids. *)
  Lemma path_ids s E : (forall e, In e E -> Occurs (fun x => x) vocab s e) -> NoDup (map (fun e => (s_pos e, s_id e)) E) ->
    forall q ks p p' ks', Path E p q ks -> Path E p' q ks' -> ids_of E ks = ids_of E ks' -> ks = ks' /\ p = p'.
  Proof.
    intros HE HND q. induction ks as [|k ks IH]; intros p p' ks' HP HP' Hids.
    - destruct ks' as [|k' ks']; [split; [reflexivity|]; inversion HP; inversion HP'; congruence|]. inversion HP' as [|? e' ? ? He']; subst.
      unfold ids_of, spans_of in Hids. cbn [flat_map] in Hids. rewrite He' in Hids. discriminate.
    - inversion HP as [|? e ? ? He HP1]; subst. destruct ks' as [|k' ks'].
      + unfold ids_of, spans_of in Hids. cbn [flat_map] in Hids. rewrite He in Hids. discriminate.
      + inversion HP' as [|? e' ? ? He' HP1']; subst. unfold ids_of, spans_of in Hids. cbn [flat_map] in Hids. rewrite He, He' in Hids. cbn [app map] in Hids. injection Hids as Hid Hids.
        destruct (IH _ _ _ HP1 HP1' Hids) as [-> Hend].
        destruct (HE _ (nth_error_In _ _ He)) as (t & b & a & [Ht _] & _ & _ & _ & Hl & _). destruct (HE _ (nth_error_In _ _ He')) as (t' & b' & a' & [Ht' _] & _ & _ & _ & Hl' & _).
        rewrite Hid in Ht. unfold token_at in Ht, Ht'. assert (t = t') by congruence. subst t'. unfold s_end in Hend. assert (Hpos : s_pos e = s_pos e') by lia. split; [|exact Hpos]. f_equal.
        eapply (proj1 (NoDup_nth_error _) HND).
        * rewrite map_length. apply nth_error_Some. congruence.
        * rewrite (map_nth_error _ _ _ He), (map_nth_error _ _ _ He'). congruence.
  Qed.
  Lemma judge_complete s l k l1 k1 l2 nbests : Lat A s [] l -> populate_nodes A (fun x => x) m (fun _ => f0) f0 l k = Ok (l1, k1) ->
    nbest_result A l1 2 (Ok (l2, nbests)) -> few_cuts vocab s -> (exists id, Cut vocab [id] s) -> (exists ids, 2 <= length ids /\ Cut vocab ids s) ->
    snd (judge nbests) <> [] \/ fst (judge nbests) = false.
  Proof.
    intros HL HP HN Hfew (id & Hid1) (ids & Hids2 & Hids). destruct (@C38_no_dropout f64 A (fun x => x) vocab (fun _ => f0) f0 s l k (proj1 Hroom) eq_refl HL) as (l' & E & HP' & HLE & HND & HE). fold m in HP'. rewrite HP in HP'. injection HP' as <- ->.
    assert (HE1 : forall e, In e E -> Occurs (fun x => x) vocab s e) by (intros e; apply HE). assert (HE2 : forall e, Occurs (fun x => x) vocab s e -> In e E) by (intros e; apply HE).
    assert (Hne : non_empty E) by (apply Forall_forall; intros e He; apply HE in He; now apply occurs_lt in He).
    assert (Hid : Forall (fun e => (s_id e < bos_id)%N) E) by (apply Forall_forall; intros e He; apply HE in He; now apply occurs_lt in He).
    destruct (@Cut_Path _ (fun x => x) vocab s E HE2 [id] 0 Hid1 (Nat.le_0_l _)) as (ks1 & HP1 & I1).
    destruct (@Cut_Path _ (fun x => x) vocab s E HE2 ids 0 Hids (Nat.le_0_l _)) as (ks2 & HP2 & I2).
    assert (Hlen : forall ks p q, Path E p q ks -> length (ids_of E ks) = length ks) by (intros ks p q Hks; unfold ids_of; rewrite map_length; exact (spans_length Hks)).
    assert (HfewE : forall L, NoDup L -> Forall (fun ks => exists p, Path E p (length s) ks) L -> (N.of_nat (length L) <= 50000)%N).
    { intros L HL1 HF. rewrite <- (map_length (ids_of E)). apply Hfew.
      - clear - HL1 HF HE1 HND. induction HL1 as [|ks L Hni _ IH]; [constructor|]. inversion HF as [|? ? (p & Hp) HF']; subst. cbn [map]. constructor; [|auto].
        intros Hin. apply in_map_iff in Hin as (ks' & Hk & Hin). rewrite Forall_forall in HF'. destruct (HF' _ Hin) as (p' & Hp'). destruct (path_ids HE1 HND Hp' Hp Hk) as [-> _]. contradiction.
      - apply Forall_forall. intros x Hx. apply in_map_iff in Hx as (ks & <- & Hin). rewrite Forall_forall in HF. destruct (HF _ Hin) as (p & Hp).
        assert (Hple : p <= length s).
        { clear - Hp Hne. remember (length s) as q. induction Hp as [|ks0 e ks q Hk H IH]; [lia|]. specialize (IH Heqq). unfold s_end in IH. lia. }
        exists (firstn p s), (skipn p s). split; [symmetry; apply firstn_skipn|]. exact (Path_Cut HE1 Hp Hple). }
    destruct (C41_complete_distinct HLE Hne Hid (Nat.le_refl 2) HN) as (l3 & paths & kss & HO & _ & Hmap & HF & HNK & _). injection HO as <- <-.
    destruct (Nat.lt_ge_cases (length nbests) 2) as [Hlt|Hge].
    - exfalso. assert (HA := C41_all_found HLE Hne Hid (Nat.le_refl 2) HfewE HN Hlt). assert (HA1 := HA _ HP1). assert (HA2 := HA _ HP2).
      destruct nbests as [|n1 [|n2 ns]]; [contradiction| |simpl in Hlt; lia]. destruct HA1 as [HA1|[]], HA2 as [HA2|[]]. rewrite HA1 in HA2. apply (f_equal (map (fun e => s_id e))) in HA2.
      change (ids_of E ks1 = ids_of E ks2) in HA2. rewrite I1, I2 in HA2. rewrite <- HA2 in Hids2. simpl in Hids2. lia.
    - destruct nbests as [|best [|second others]]; try (simpl in Hge; lia). destruct kss as [|k1' [|k2' kss]]; try discriminate. cbn [map] in Hmap. injection Hmap as Hm1 Hm2 _.
      inversion HF as [|? ? HB1 HF']; subst. inversion HF' as [|? ? HB2 _]; subst. inversion HNK as [|? ? Hnot _]; subst.
      assert (L1 : length best = length k1') by (rewrite <- (spans_length HB1), <- Hm1, map_length; reflexivity).
      unfold judge. rewrite L1. cbn [fst snd].
      assert (Hs : s <> []) by (intros E0; rewrite E0 in Hid1; clear - Hid1; inversion Hid1 as [|i t ids0 r Ht Hx HC E1 E2]; destruct (st_value t); [congruence|discriminate]).
      assert (Hk0 : forall ks, Path E 0 (length s) ks -> ks <> []) by (intros ks Hks ->; inversion Hks as [? H0|]; destruct s; [congruence|discriminate]).
      destruct (length k1') as [|[|n]] eqn:En; [exfalso|left|right; reflexivity].
      + apply (Hk0 _ HB1). now apply length_zero_iff_nil.
      + cbn [Nat.eqb]. intros Hx. apply (Hk0 _ HB2). apply length_zero_iff_nil. rewrite <- (spans_length HB2), <- Hm2, map_length. apply (f_equal (@length _)) in Hx. rewrite map_length in Hx. exact Hx.
  Qed.
  Lemma judge_one s l k l1 k1 l2 nbests : Lat A s [] l -> populate_nodes A (fun x => x) m (fun _ => f0) f0 l k = Ok (l1, k1) ->
    nbest_result A l1 2 (Ok (l2, nbests)) -> judgement vocab s (judge nbests).
  Proof.
    intros HL HP HN. split; [eapply judge_sound; eauto|eapply judge_complete; eauto].
  Qed.

  Lemma judge_step t l p : Pool p -> exists l1 p1 l2 k l3 nbests, lattice_from A l (st_value t) p = Ok (l1, p1) /\ Pool p1 /\ Lat A (st_value t) [] l1 /\
    populate_nodes A (fun x => x) m (fun _ => f0) f0 l1 0 = Ok (l2, k) /\ ~ nbest_result A l2 2 Panic /\ nbest_result A l2 2 (Ok (l3, nbests)).
  Proof.
    intros Hp. destruct (@from_spec f64 A l (st_value t) p Hp) as (l1 & p1 & Hf & Hp1 & _). assert (HL : Lat A (st_value t) [] l1) by (exact (@Lat_from _ _ _ _ _ _ _ Hp Hf)).
    destruct (@C38_no_dropout f64 A (fun x => x) vocab (fun _ => f0) f0 (st_value t) l1 0 (proj1 Hroom) eq_refl HL) as (l2 & E & HP & HLE & HND & HE).
    assert (Hne : non_empty E) by (apply Forall_forall; intros e He; apply HE in He; now apply occurs_lt in He).
    assert (Hid : Forall (fun e => (s_id e < bos_id)%N) E) by (apply Forall_forall; intros e He; apply HE in He; now apply occurs_lt in He).
    destruct (@C41_returns exp ln _ _ _ 2 HLE Hne Hid) as (l3 & nbests & HN). exists l1, p1, l2, 0, l3, nbests. repeat split; auto.
    intros HX. destruct (C41_complete_distinct HLE Hne Hid (Nat.le_refl 2) HX) as (? & ? & ? & HO & _). discriminate.
  Qed.

  Lemma judge_spec toks l p judged r : judge_result exp ln m toks l p judged r -> Pool p ->
    exists js, r = Ok (judged ++ js) /\ Forall2 (fun t j => judgement vocab (st_value t) j) toks js.
  Proof.
    induction 1 as [l p judged|t toks l p judged l1 p1 l2 k l3 nbests r H1 H2 H3 _ IH|t toks l p judged H|t toks l p judged l1 p1 l2 k H1 H2 H3]; intros Hp.
    - exists []. rewrite app_nil_r. split; [reflexivity|constructor].
    - destruct (judge_step t l Hp) as (l1' & p1' & _ & _ & _ & _ & H1' & Hp1 & HL & _). fold A in H1. rewrite H1 in H1'. injection H1' as <- <-.
      destruct (IH Hp1) as (js & -> & HF). exists (judge nbests :: js). rewrite <- app_assoc. split; [reflexivity|]. constructor; [|exact HF]. eapply judge_one; eauto.
    - exfalso. destruct (judge_step t l Hp) as (l1' & p1' & ? & ? & _ & _ & H1' & Hp1 & HL & HP & _). fold A in H. rewrite H1' in H. cbn [bind] in H. rewrite HP in H. discriminate.
    - exfalso. destruct (judge_step t l Hp) as (l1' & p1' & ? & ? & _ & _ & H1' & Hp1 & HL & HP & HX & _). fold A in H1, H2, H3. rewrite H1 in H1'. injection H1' as <- <-.
      rewrite H2 in HP. injection HP as <- <-. contradiction.
  Qed.
  Lemma judge_exists toks : forall l p judged, Pool p -> exists js, judge_result exp ln m toks l p judged (Ok js).
  Proof.
    induction toks as [|t toks IH]; intros l p judged Hp; [eexists; constructor|].
    destruct (judge_step t l Hp) as (l1 & p1 & l2 & k & l3 & nbests & H1 & Hp1 & _ & H2 & _ & H3). destruct (IH l3 p1 (judged ++ [judge nbests]) Hp1) as (js & H). exists js.
    eapply judge_token; eauto.
  Qed.
End Judge.

(** ** What is left of the vocabulary *)
Definition vk (t : scored_token) : bytes * bool := (st_value t, st_keep t).
(** [v] has some of the tokens of [vocab], with other scores; the others were not protected. *)
Definition shrunk (vocab v : list scored_token) : Prop :=
  exists removed, Permutation (map vk v ++ removed) (map vk vocab) /\ Forall (fun x => snd x = false) removed.
Lemma shrunk_refl v : shrunk v v.
Proof. exists []. rewrite app_nil_r. split; [reflexivity|constructor]. Qed.
Lemma shrunk_trans a b c : shrunk a b -> shrunk b c -> shrunk a c.
Proof.
  intros (r1 & P1 & F1) (r2 & P2 & F2). exists (r2 ++ r1). split; [|now apply Forall_app]. rewrite app_assoc, P2. exact P1.
Qed.
Lemma map_nth_seq {A} (l : list A) d : map (fun i => nth i l d) (seq 0 (length l)) = l.
Proof.
  induction l as [|a l IH]; [reflexivity|]. cbn [length seq map]. f_equal. rewrite <- seq_shift, map_map. exact IH.
Qed.
Lemma select_shrunk vocab ids v : NoDup ids -> Forall2 (fun i t' => exists t, nth_error vocab i = Some t /\ vk t' = vk t) ids v ->
  (forall i t, nth_error vocab i = Some t -> st_keep t = true -> In i ids) -> shrunk vocab v.
Proof.
  intros HN HF HK. set (others := filter (fun i => negb (existsb (Nat.eqb i) ids)) (seq 0 (length vocab))). set (d := vk (ST [] f0 false)).
  assert (Hin : forall i, In i others <-> i < length vocab /\ ~ In i ids).
  { intros i. unfold others. rewrite filter_In, in_seq, negb_true_iff. split; intros [H1 H2]; (split; [lia|]).
    - intros Hi. assert (existsb (Nat.eqb i) ids = true) by (apply existsb_exists; exists i; split; [exact Hi|apply Nat.eqb_refl]). congruence.
    - destruct (existsb (Nat.eqb i) ids) eqn:E; [|reflexivity]. apply existsb_exists in E as (j & Hj & E). apply Nat.eqb_eq in E. congruence. }
  exists (map (fun i => nth i (map vk vocab) d) others). split.
  - assert (Hv : map vk v = map (fun i => nth i (map vk vocab) d) ids).
    { clear - HF. induction HF as [|i t' ids v (t & Ht & E) _ IH]; [reflexivity|]. cbn [map]. rewrite IH, E. f_equal. symmetry. apply nth_error_nth. now apply map_nth_error. }
    rewrite Hv, <- map_app, <- (map_nth_seq (map vk vocab) d) at 1. rewrite map_length. apply Permutation_map. apply NoDup_Permutation.
    + apply NoDup_app_disjoint; [exact HN|apply NoDup_filter, seq_NoDup|]. intros i Hi H. apply Hin in H as [_ H]. contradiction.
    + apply seq_NoDup.
    + intros i. rewrite in_app_iff, in_seq, Hin. split.
      * intros [H|[H _]]; [|lia]. destruct (Forall2_In_l _ HF H) as (t' & _ & t & Ht & _). split; [lia|]. simpl. apply nth_error_Some. congruence.
      * intros [_ H]. simpl in H. destruct (in_dec Nat.eq_dec i ids); auto.
  - apply Forall_forall. intros x Hx. apply in_map_iff in Hx as (i & <- & Hi). apply Hin in Hi as [Hl Hn]. destruct (nth_error_lt _ Hl) as (t & Ht).
    rewrite (nth_error_nth _ _ d (map_nth_error vk _ _ Ht)). simpl. destruct (st_keep t) eqn:E; [|reflexivity]. exfalso. eauto.
Qed.

Lemma StronglySorted_lt_NoDup ids : StronglySorted lt ids -> NoDup ids.
Proof. induction 1 as [|i ids _ IH HF]; constructor; [|exact IH]. intros Hin. rewrite Forall_forall in HF. specialize (HF _ Hin). lia. Qed.
Lemma m_step_shrunk ln fuel m freqs v : m_step ln fuel m freqs = Ok v -> shrunk (m_vocab m) v.
Proof.
  intros H. apply m_step_spec in H as (Hl & ids & total & HS & HI & HF & _). apply select_shrunk with (ids := ids).
  - now apply StronglySorted_lt_NoDup.
  - clear - HF. induction HF as [|i t' ids v (f & t & d & _ & Ht & _ & -> & _) _ IH]; constructor; [|exact IH]. exists t. split; [exact Ht|reflexivity].
  - intros i t Ht Hk. apply HI. assert (Hi : i < length freqs) by (rewrite Hl; apply nth_error_Some; congruence). destruct (nth_error_lt _ Hi) as (f & Hf). exists f, t. auto.
Qed.
Lemma choose_shrunk ln s1 s2 c m num_samples judged freqs v : valid_sorter s1 -> valid_sorter s2 -> choose ln s1 s2 c m num_samples judged freqs = Ok v ->
  shrunk (m_vocab m) v.
Proof.
  intros H1 H2 H. destruct (@choose_spec _ _ _ _ _ _ _ _ _ H1 H2 H) as (fx & chosen & rest & ds & tf & tc & HP & HF & HC & HV & _ & HCa & HD & _).
  assert (Hs : shrunk (m_vocab m) (tf ++ tc)).
  { apply select_shrunk with (ids := fx ++ map fst chosen).
    - assert (HN := Permutation_NoDup (Permutation_sym HP) (seq_NoDup _ _)). rewrite app_assoc in HN. now apply NoDup_app_l in HN.
    - apply Forall2_app.
      + clear - HF. induction HF as [|i t ids l [Ht _] _ IH]; constructor; eauto.
      + clear - HC. induction HC as [|i t ids l Ht _ IH]; constructor; eauto.
    - intros i t Ht Hk. assert (Hi : In i (fx ++ map fst chosen ++ map fst rest ++ ds)).
      { apply (Permutation_in _ (Permutation_sym HP)), in_seq. split; [lia|]. apply nth_error_Some. simpl. congruence. }
      rewrite app_assoc, in_app_iff in Hi. destruct Hi as [Hi|Hi]; [exact Hi|exfalso]. apply in_app_or in Hi as [Hi|Hi].
      + apply in_map_iff in Hi as ([j x] & <- & Hj). rewrite Forall_forall in HCa. destruct (HCa (j, x)) as (t' & n & al & alts & Ht' & Hk' & _); [apply in_or_app; now right|]. simpl in *. congruence.
      + rewrite Forall_forall in HD. destruct (HD i Hi) as (t' & al & alts & Ht' & Hk' & _). congruence. }
  destruct Hs as (removed & P & F). exists removed. split; [|exact F]. now rewrite <- HV.
Qed.
Section PruneFacts.
  Variables (exp ln : f64 -> f64) (threads : nat).
  Lemma em_shrunk fuel c samples n m m' : em_result exp ln threads fuel c samples n m (Ok m') -> shrunk (m_vocab m) (m_vocab m').
  Proof.
    intros H. remember (Ok m') as r eqn:E. revert m' E. induction H as [m|n m freqs vocab r He Hm _ IH|n m|n m freqs r _ [[-> _]|[-> _]]]; intros m' E; try discriminate.
    - injection E as <-. apply shrunk_refl.
    - eapply shrunk_trans; [eapply m_step_shrunk; exact Hm|]. rewrite <- (model_from_vocab vocab). now apply IH.
  Qed.
  Lemma prune_vocab_shrunk s1 s2 c m samples v : valid_sorter s1 -> valid_sorter s2 -> prune_vocab_result exp ln threads s1 s2 c m samples (Ok v) -> shrunk (m_vocab m) v.
  Proof. intros H1 H2 H. inversion H as [judged freqs HJ HC E| | |]; subst. eapply choose_shrunk; [exact H1|exact H2|]. exact E. Qed.
  Lemma prune_shrunk s1 s2 fuel c samples m m' : valid_sorter s1 -> valid_sorter s2 -> prune_result exp ln threads s1 s2 fuel c samples m (Ok m') ->
    shrunk (m_vocab m) (m_vocab m') /\ vocab_size m' <= pc_vocab_size c.
  Proof.
    intros H1 H2 H. remember (Ok m') as r eqn:E. revert m' E. induction H as [m Hs|m m1 vocab r Hs He Hv _ IH|m r _ _ Hr|m m1|m m1 e]; intros m' E; try discriminate.
    - injection E as <-. split; [apply shrunk_refl|exact Hs].
    - destruct (IH _ E) as [H3 H4]. split; [|exact H4]. rewrite model_from_vocab in H3.
      eapply shrunk_trans; [eapply em_shrunk; exact He|]. eapply shrunk_trans; [eapply prune_vocab_shrunk; [exact H1|exact H2|exact Hv]|exact H3].
    - subst r. destruct Hr; discriminate.
  Qed.
End PruneFacts.
