(** Facts about the random draws of vocabulary generation (src/generate.rs). *)
From Verif Require Import Base BaseProofs F64 Utf8 SpecUtf8 Utf8Proofs Trie Model Par MineProofs Generate GenerateProofs SpecGenerate.
Set Implicit Arguments.
Local Open Scope nat_scope.
Local Ltac splits := repeat match goal with |- _ /\ _ => split end.

(** ** Windows *)
Lemma heads_longer {X} (l h : list X) : In h (heads l) -> h <> [].
Proof. destruct l as [|x l]; [contradiction|]. intros [<-|H]; [discriminate|]. apply in_map_iff in H as (y & <- & _). discriminate. Qed.
Lemma suffix_cands_eq max cs : forall done, let len := length (encode_string done) in
  suffix_cands max (encode_string (done ++ cs)) (offsets len cs) len = filter (fun x => length x <=? max) (map encode_string (map (app done) (heads cs))).
Proof.
  induction cs as [|c cs IH]; intros done; cbn zeta; [reflexivity|]. cbn [offsets suffix_cands heads map filter]. assert (El := encode_string_snoc done c). rewrite El.
  assert (Ec : done ++ c :: cs = (done ++ [c]) ++ cs) by now rewrite <- app_assoc.
  assert (Em : map (app done) (map (cons c) (heads cs)) = map (app (done ++ [c])) (heads cs)) by (rewrite map_map; apply map_ext; intros h; now rewrite <- app_assoc). rewrite Em.
  destruct (Nat.ltb_spec max (length (encode_string (done ++ [c])))) as [Hlt|Hge].
  - rewrite (proj2 (Nat.leb_gt _ _) Hlt). symmetry. clear - Hlt. induction (heads cs) as [|h l IH]; [reflexivity|]. cbn [map filter]. rewrite (proj2 (Nat.leb_gt _ _)); [exact IH|]. rewrite encode_string_app, app_length. lia.
  - rewrite (proj2 (Nat.leb_le _ _) Hge). rewrite Ec. f_equal; [|apply IH]. rewrite (encode_string_app (done ++ [c]) cs). now rewrite firstn_app, Nat.sub_diag, firstn_all, firstn_O, app_nil_r.
Qed.
Lemma part_cands_eq max cs : Forall scalar cs -> part_cands max (encode_string cs) = windows max cs.
Proof.
  intros Hcs. unfold part_cands, windows. rewrite char_indices_spec by exact Hcs.
  assert (H : forall cs' done, cs = done ++ cs' -> flat_map (fun i => let suffix := skipn (fst i) (encode_string cs) in suffix_cands max suffix (char_indices suffix) 0) (offsets (length (encode_string done)) cs') =
    filter (fun x => length x <=? max) (map encode_string (flat_map (@heads N) (tails cs')))).
  { induction cs' as [|c cs' IH]; intros done E; [reflexivity|]. cbn [offsets flat_map fst tails]. cbn zeta.
    assert (Ef : skipn (length (encode_string done)) (encode_string cs) = encode_string (c :: cs')) by (rewrite E, (encode_string_app done (c :: cs')), skipn_app, Nat.sub_diag, skipn_all; reflexivity).
    rewrite Ef. assert (Hs : Forall scalar (c :: cs')) by (rewrite E in Hcs; now apply Forall_app in Hcs). rewrite char_indices_spec by exact Hs.
    rewrite map_app, filter_app. f_equal.
    - assert (H := suffix_cands_eq max (c :: cs') []). cbn zeta in H. rewrite (map_ext (app []) (fun x => x)), map_id in H by reflexivity. exact H.
    - rewrite encode_string_snoc. apply IH. rewrite E, <- app_assoc. reflexivity. }
  exact (H cs [] eq_refl).
Qed.

(** ** Occurrences *)
Lemma starts_with_iff s t : starts_with s t = true <-> exists r, s = t ++ r.
Proof. destruct (starts_with_spec s t); split; auto; congruence. Qed.
Lemma matches_greedy t : t <> [] -> forall fuel s, length s < fuel -> Greedy t s (matches_fuel fuel s t).
Proof.
  intros Ht. induction fuel as [|fuel IH]; intros s Hl; [lia|]. cbn [matches_fuel]. destruct s as [|b s].
  - apply Greedy_none. intros pre post E. destruct pre; [|discriminate]. destruct t; [congruence|discriminate].
  - destruct (starts_with (b :: s) t) eqn:E.
    + apply starts_with_iff in E as (r & E). rewrite E. rewrite skipn_app, Nat.sub_diag, skipn_all. cbn [skipn app]. apply (@Greedy_next t []); [simpl; lia|].
      apply IH. assert (H : length (b :: s) = length (t ++ r)) by now rewrite E. rewrite app_length in H. destruct t; [congruence|]. simpl in *. lia.
    + assert (HN : forall r, b :: s <> t ++ r) by (intros r Er; assert (starts_with (b :: s) t = true) by (apply starts_with_iff; eauto); congruence).
      specialize (IH s ltac:(simpl in Hl; lia)). inversion IH as [s' Hno Es En|pre post n Hmin HG Es En].
      * apply Greedy_none. intros [|b' pre] post Ep; [now apply (HN post)|]. injection Ep as -> Ep. now apply (Hno pre post).
      * change (b :: pre ++ t ++ post) with ((b :: pre) ++ t ++ post). apply Greedy_next; [|exact HG]. intros [|b' pre'] post' Ep.
        -- exfalso. apply (HN post'). rewrite <- Es. exact Ep.
        -- injection Ep as _ Ep. simpl. apply le_n_S. eapply Hmin. exact Ep.
Qed.
Lemma count_occurrences s t : Utf8 s -> Occurrences t s (count_matches s t).
Proof.
  intros (cs & Hcs & ->). unfold count_matches. destruct t as [|b t].
  - left. split; [reflexivity|]. exists cs. splits; auto. rewrite char_indices_spec by exact Hcs. f_equal. generalize 0. clear. induction cs as [|c cs IH]; intros i; [reflexivity|]. cbn [offsets length]. f_equal. apply IH.
  - right. split; [discriminate|]. apply matches_greedy; [discriminate|lia].
Qed.
Lemma greedy_unique t s n m : t <> [] -> Greedy t s n -> Greedy t s m -> n = m.
Proof.
  intros Ht H. revert m. induction H as [s Hno|pre post n Hmin _ IH]; intros m Hm; inversion Hm as [s' Hno' Es|pre' post' m' Hmin' HG' Es]; subst.
  - reflexivity.
  - exfalso. now apply (Hno pre' post').
  - exfalso. now apply (Hno' pre post).
  - assert (Hl : length pre = length pre') by (apply Nat.le_antisymm; [eapply Hmin; symmetry; exact Es|eapply Hmin'; exact Es]).
    f_equal. apply IH. assert (E : post' = post); [|now rewrite <- E]. apply (f_equal (skipn (length pre'))) in Es. rewrite <- Hl in Es at 2. rewrite !skipn_app, !skipn_all, !Nat.sub_diag in Es. simpl in Es. now apply app_inv_head in Es.
Qed.

(** ** Draws *)
Section Draws.
  Variable g : generator.
  Variable rnd : nat -> f64.
  Definition win (k : nat) : bool := fltb (rnd k) (g_insert_probability g).
  Definition allow_it (x : bytes) : bool := match g_allow g with None => true | Some allow => allow x end.

  Lemma try_draws cands : forall st, let st' := fold_left (try_candidate g rnd) cands st in
    fst st' = fst st + length (filter allow_it cands) /\
    forall x, In x (snd st') <-> In x (snd st) \/ exists k, nth_error (filter allow_it cands) k = Some x /\ win (fst st + k) = true.
  Proof.
    induction cands as [|c cands IH]; intros st; cbn zeta; cbn [fold_left filter].
    - split; [simpl; lia|]. intros x. split; [auto|]. intros [H|([|k] & H & _)]; [exact H|discriminate|discriminate].
    - specialize (IH (try_candidate g rnd st c)). cbn zeta in IH. destruct IH as [IH1 IH2]. unfold try_candidate in *. fold (allow_it c) in *. destruct (allow_it c) eqn:Ea; [|split; assumption].
      cbn [fst snd length] in *. split; [lia|]. intros x. rewrite IH2. fold (win (fst st)). destruct (win (fst st)) eqn:Ew.
      + rewrite set_insert_In. split.
        * intros [[->|H]|(k & Hk & Hw)]; [right; exists 0; rewrite Nat.add_0_r; auto|now left|right; exists (S k); split; [exact Hk|]; rewrite <- Hw; f_equal; lia].
        * intros [H|([|k] & Hk & Hw)]; [auto|injection Hk as ->; auto|right; exists k; split; [exact Hk|]; rewrite <- Hw; f_equal; lia].
      + split.
        * intros [H|(k & Hk & Hw)]; [now left|right; exists (S k); split; [exact Hk|]; rewrite <- Hw; f_equal; lia].
        * intros [H|([|k] & Hk & Hw)]; [auto|rewrite Nat.add_0_r in Hw; congruence|right; exists k; split; [exact Hk|]; rewrite <- Hw; f_equal; lia].
  Qed.
  Lemma listed_draws n token : forall st, let st' := listed_loop g rnd n token st in
    exists m, until_won win (fst st) n m /\ fst st' = fst st + m /\
    forall x, In x (snd st') <-> In x (snd st) \/ exists k, nth_error (repeat token m) k = Some x /\ win (fst st + k) = true.
  Proof.
    unfold until_won. induction n as [|n IH]; intros st; cbn zeta; cbn [listed_loop].
    - exists 0. splits; [lia|intros; lia|intros; lia|lia|]. intros x. split; [auto|]. intros [H|([|k] & H & _)]; [exact H|discriminate|discriminate].
    - fold (win (fst st)). destruct (win (fst st)) eqn:Ew.
      + exists 1. cbn [fst snd]. splits; [lia|intros; lia|intros _; exists 0; rewrite Nat.add_0_r; auto|lia|]. intros x. rewrite set_insert_In. split.
        * intros [->|H]; [right; exists 0; rewrite Nat.add_0_r; auto|now left].
        * intros [H|([|k] & Hk & Hw)]; [auto|injection Hk as ->; auto|destruct k; discriminate].
      + destruct (IH (S (fst st), snd st)) as (m & (H1 & H2 & H3) & H4 & H5). cbn [fst snd] in *. exists (S m). splits.
        * lia.
        * intros [|j] Hj; [now rewrite Nat.add_0_r|]. rewrite <- plus_n_Sm. apply H2. lia.
        * intros Hm. destruct H3 as (j & -> & Hw); [lia|]. exists (S j). split; [reflexivity|]. rewrite <- plus_n_Sm. exact Hw.
        * lia.
        * intros x. rewrite H5. cbn [repeat]. split.
          -- intros [H|(k & Hk & Hw)]; [now left|right; exists (S k); split; [exact Hk|]; rewrite <- Hw; f_equal; lia].
          -- intros [H|([|k] & Hk & Hw)]; [auto|rewrite Nat.add_0_r in Hw; congruence|right; exists k; split; [exact Hk|]; rewrite <- Hw; f_equal; lia].
  Qed.
  (** [turns l k ms]: the numbers of draws for the listed tokens [l], from draw [k] on. *)
  Inductive turns (sample : bytes) : list bytes -> nat -> list nat -> Prop :=
  | turns_nil k : turns sample [] k []
  | turns_cons t l k m ms : until_won win k (count_matches sample t) m -> turns sample l (k + m) ms -> turns sample (t :: l) k (m :: ms).
  Definition owners (l : list bytes) (ms : list nat) : list bytes := concat (map (fun x => repeat (fst x) (snd x)) (combine l ms)).
  Lemma all_listed_draws sample tokens : forall st, let st' := fold_left (fun st token => listed_loop g rnd (count_matches sample token) token st) tokens st in
    exists ms, turns sample tokens (fst st) ms /\
    forall x, In x (snd st') <-> In x (snd st) \/ exists k, nth_error (owners tokens ms) k = Some x /\ win (fst st + k) = true.
  Proof.
    induction tokens as [|t tokens IH]; intros st; cbn zeta; cbn [fold_left].
    - exists []. split; [constructor|]. intros x. split; [auto|]. intros [H|([|k] & H & _)]; [exact H|discriminate|discriminate].
    - destruct (listed_draws (count_matches sample t) t st) as (m & HU & Hk & HX). cbn zeta in *. destruct (IH (listed_loop g rnd (count_matches sample t) t st)) as (ms & HT & HY). cbn zeta in *. rewrite Hk in HT, HY.
      exists (m :: ms). split; [now constructor|]. intros x. rewrite HY, HX. unfold owners. cbn [combine map concat fst snd]. fold (owners tokens ms). split.
      + intros [[H|(k & H & Hw)]|(k & H & Hw)]; [now left|right; exists k|right; exists (m + k)].
        * split; [|exact Hw]. rewrite nth_error_app1; [exact H|]. apply nth_error_Some. congruence.
        * split; [|now rewrite Nat.add_assoc]. rewrite nth_error_app2; rewrite repeat_length; [|lia]. replace (m + k - m) with k by lia. exact H.
      + intros [H|(k & H & Hw)]; [auto|]. destruct (Nat.lt_ge_cases k m) as [Hlt|Hge].
        * left. right. exists k. rewrite nth_error_app1 in H by now rewrite repeat_length. auto.
        * right. exists (k - m). rewrite nth_error_app2, repeat_length in H by now rewrite repeat_length. split; [exact H|]. rewrite <- Hw. f_equal. lia.
  Qed.
End Draws.
