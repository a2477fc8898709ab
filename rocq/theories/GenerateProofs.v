(** Facts about vocabulary generation. *)
From Flocq Require IEEE754.BinarySingleNaN.
From Verif Require Import Base BaseProofs F64 F64Proofs Utf8 SpecUtf8 Utf8Proofs Trie Model Sort SortProofs Par ParProofs MineProofs Generate.
Set Implicit Arguments.
Local Ltac splits := repeat match goal with |- _ /\ _ => split end.

(** ** Sets *)
Lemma contains_spec x l : contains x l = true <-> In x l.
Proof.
  unfold contains. rewrite existsb_exists. split.
  - intros (y & Hy & E). apply (reflect_iff _ _ (bytes_eqb_spec x y)) in E. now subst.
  - intros H. exists x. split; [exact H|]. now apply (reflect_iff _ _ (bytes_eqb_spec x x)).
Qed.
Lemma contains_false x l : contains x l = false <-> ~ In x l.
Proof. rewrite <- contains_spec. destruct (contains x l); split; congruence. Qed.
Lemma set_insert_In x y l : In y (set_insert x l) <-> y = x \/ In y l.
Proof.
  unfold set_insert. destruct (contains x l) eqn:E; simpl; [apply contains_spec in E|]; intuition (subst; auto).
Qed.
Lemma set_insert_NoDup x l : NoDup l -> NoDup (set_insert x l).
Proof. unfold set_insert. destruct (contains x l) eqn:E; [auto|]. apply contains_false in E. now constructor. Qed.

(** ** Matches *)
Definition Substring (t s : bytes) : Prop := exists pre post, s = pre ++ t ++ post.

Lemma matches_fuel_spec token : token <> [] -> forall fuel s, length s < fuel -> 0 < matches_fuel fuel s token <-> Substring token s.
Proof.
  intros Ht. induction fuel as [|fuel IH]; intros s Hf; [lia|]. cbn [matches_fuel]. destruct s as [|b s].
  - split; [lia|]. intros (pre & post & E). destruct pre; [|discriminate]. destruct token; [congruence|discriminate].
  - destruct (starts_with (b :: s) token) eqn:E.
    + split; [intros _|lia]. destruct (starts_with_spec (b :: s) token) as [[r Hr]|]; [|discriminate]. exists [], r. exact Hr.
    + rewrite IH by (simpl in Hf; lia). split; intros (pre & post & Hs).
      * exists (b :: pre), post. simpl. now rewrite Hs.
      * destruct pre as [|b' pre]; [simpl in Hs; rewrite Hs, starts_with_app in E; discriminate|]. injection Hs as -> Hs. exists pre, post. exact Hs.
Qed.
Lemma count_matches_spec s token : 0 < count_matches s token <-> Substring token s.
Proof.
  unfold count_matches. destruct token as [|b t]; [|apply matches_fuel_spec; [discriminate|lia]]. split; [intros _|lia]. now exists [], s.
Qed.

(** ** Candidates *)
Lemma encode_string_app a b : encode_string (a ++ b) = encode_string a ++ encode_string b.
Proof. unfold encode_string. now rewrite map_app, concat_app. Qed.
Lemma encode_string_nil cs : encode_string cs = [] -> cs = [].
Proof. destruct cs as [|c cs]; [reflexivity|]. unfold encode_string. simpl. intros H. apply app_eq_nil in H as [H _]. now apply encode_char_nonempty in H. Qed.

Lemma encode_string_snoc done c : length (encode_string done) + length (encode_char c) = length (encode_string (done ++ [c])).
Proof. rewrite encode_string_app, app_length. f_equal. unfold encode_string. simpl. now rewrite app_nil_r. Qed.

Section Candidates.
  Variable max : nat.
  (** What [suffix_loop] tries. *)
  Fixpoint suffix_cands (suffix : bytes) (idx : list (nat * nat)) (len : nat) : list bytes :=
    match idx with
    | [] => []
    | (ii, n) :: idx' => if max <? len + n then [] else firstn (ii + n) suffix :: suffix_cands suffix idx' (len + n)
    end.
  Lemma suffix_cands_In done cs x : let len := length (encode_string done) in
    In x (suffix_cands (encode_string (done ++ cs)) (offsets len cs) len) <->
    exists l r, cs = l ++ r /\ l <> [] /\ x = encode_string (done ++ l) /\ length x <= max.
  Proof.
    revert done. induction cs as [|c cs IH]; intros done; cbn zeta.
    - simpl. split; [contradiction|]. intros (l & r & E & Hl & _). symmetry in E. apply app_eq_nil in E as [-> _]. congruence.
    - cbn [offsets suffix_cands]. assert (El := encode_string_snoc done c).
      rewrite El. assert (Ec : done ++ c :: cs = (done ++ [c]) ++ cs) by now rewrite <- app_assoc.
      destruct (Nat.ltb_spec max (length (encode_string (done ++ [c])))) as [Hlt|Hge].
      + split; [contradiction|]. intros (l & r & E & Hl & -> & Hx). destruct l as [|c' l]; [congruence|]. injection E as <- ->.
        replace (done ++ c :: l) with ((done ++ [c]) ++ l) in Hx by now rewrite <- app_assoc. rewrite encode_string_app, app_length in Hx. lia.
      + rewrite Ec.
        assert (Ef : firstn (length (encode_string (done ++ [c]))) (encode_string ((done ++ [c]) ++ cs)) = encode_string (done ++ [c])).
        { rewrite (encode_string_app (done ++ [c]) cs). now rewrite firstn_app, Nat.sub_diag, firstn_all, firstn_O, app_nil_r. }
        rewrite Ef. cbn [In]. rewrite IH. split.
        * intros [<-|(l & r & -> & Hl & -> & Hx)].
          -- exists [c], cs. repeat split; [discriminate|exact Hge].
          -- exists (c :: l), r. rewrite <- app_assoc in *. repeat split; [discriminate|exact Hx].
        * intros (l & r & E & Hl & -> & Hx). destruct l as [|c' l]; [congruence|]. injection E as <- ->. destruct l as [|c2 l]; [now left|right].
          exists (c2 :: l), r. rewrite <- app_assoc. repeat split; [discriminate|exact Hx].
  Qed.

  Definition part_cands (part : bytes) : list bytes :=
    flat_map (fun i => let suffix := skipn (fst i) part in suffix_cands suffix (char_indices suffix) 0) (char_indices part).

  Lemma part_cands_In cs x : Forall scalar cs -> In x (part_cands (encode_string cs)) <->
    exists p l r, cs = p ++ l ++ r /\ l <> [] /\ x = encode_string l /\ length x <= max.
  Proof.
    intros Hcs. unfold part_cands. rewrite char_indices_spec by exact Hcs.
    assert (H : forall done cs', cs = done ++ cs' -> In x (flat_map (fun i => let suffix := skipn (fst i) (encode_string cs) in suffix_cands suffix (char_indices suffix) 0) (offsets (length (encode_string done)) cs')) <->
      exists p l r, cs' = p ++ l ++ r /\ l <> [] /\ x = encode_string l /\ length x <= max).
    { intros done cs'. revert done. induction cs' as [|c cs' IH]; intros done E.
      - simpl. split; [contradiction|]. intros (p & l & r & E' & Hl & _). symmetry in E'. apply app_eq_nil in E' as [_ E']. apply app_eq_nil in E' as [-> _]. congruence.
      - cbn [offsets flat_map fst]. rewrite in_app_iff. cbn zeta. assert (Ef : skipn (length (encode_string done)) (encode_string cs) = encode_string (c :: cs')).
        { rewrite E, (encode_string_app done (c :: cs')), skipn_app, Nat.sub_diag, skipn_all. reflexivity. }
        rewrite Ef.
        assert (Hs : Forall scalar (c :: cs')) by (rewrite E in Hcs; now apply Forall_app in Hcs).
        rewrite char_indices_spec by exact Hs. rewrite (suffix_cands_In [] (c :: cs') x : In x (suffix_cands (encode_string (c :: cs')) (offsets 0 (c :: cs')) 0) <-> _).
        assert (El := encode_string_snoc done c).
        rewrite El. rewrite (IH (done ++ [c])) by (rewrite E, <- app_assoc; reflexivity). split.
        + intros [(l & r & E1 & Hl & Hx & Hm)|(p & l & r & -> & Hl & Hx & Hm)]; [exists [], l, r; auto|exists (c :: p), l, r; auto].
        + intros (p & l & r & E1 & Hl & Hx & Hm). destruct p as [|c' p]; [left; exists l, r; auto|]. injection E1 as <- ->. right. exists p, l, r; auto. }
    exact (H [] cs eq_refl).
  Qed.

  Lemma part_cands_spec part x : Utf8 part -> In x (part_cands part) <->
    exists pre post, part = pre ++ x ++ post /\ Utf8 pre /\ Utf8 x /\ x <> [] /\ length x <= max.
  Proof.
    intros (cs & Hcs & Ecs). split.
    - rewrite Ecs, (part_cands_In x Hcs). intros (p & l & r & -> & Hl & -> & Hm). apply Forall_app in Hcs as [H1 H2]. apply Forall_app in H2 as [H2 H3].
      exists (encode_string p), (encode_string r). rewrite !encode_string_app. repeat split; try assumption; [now exists p|now exists l|].
      intros E. now apply encode_string_nil in E.
    - intros (pre & post & E & Hpre & Hx & Hne & Hm).
      assert (HU : Utf8 (pre ++ x ++ post)) by (rewrite <- E; now exists cs).
      assert (Hpost : Utf8 post) by (apply Utf8_app_inv with x; [exact Hx|]; apply Utf8_app_inv with pre; assumption).
      destruct Hpre as (c1 & H1 & ->), Hx as (c2 & H2 & ->), Hpost as (c3 & H3 & ->). rewrite <- !encode_string_app in E. rewrite E.
      apply part_cands_In; [repeat (apply Forall_app; split); assumption|]. exists c1, c2, c3. repeat split; auto. intros ->. now apply Hne.
  Qed.
End Candidates.

(** ** The tokens of a sample *)
Section Sample.
  Variable g : generator.
  Variable rnd : nat -> f64.
  Notation max := (g_max_token_length g).
  Definition allowed (x : bytes) : Prop := match g_allow g with None => True | Some f => f x = true end.

  Lemma suffix_loop_fold suffix idx : forall len st,
    suffix_loop g rnd suffix idx len st = fold_left (try_candidate g rnd) (suffix_cands max suffix idx len) st.
  Proof.
    induction idx as [|[ii n] idx IH]; intros len st; [reflexivity|]. cbn [suffix_loop suffix_cands]. destruct (max <? len + n); [reflexivity|]. apply IH.
  Qed.
  Lemma part_loop_fold part st : part_loop g rnd part st = fold_left (try_candidate g rnd) (part_cands max part) st.
  Proof.
    unfold part_loop, part_cands. rewrite <- fold_flat_map. cbn zeta. revert st. induction (char_indices part) as [|i idx IH]; intros st; [reflexivity|]. cbn [fold_left].
    rewrite suffix_loop_fold. apply IH.
  Qed.
  Lemma parts_loop_fold parts : forall st st', parts_loop g rnd parts st = Ok st' <->
    (forall p, In p parts -> p <> None) /\ st' = fold_left (try_candidate g rnd) (flat_map (fun p => match p with Some p => part_cands max p | None => [] end) parts) st.
  Proof.
    induction parts as [|[p|] parts IH]; intros st st'; cbn [parts_loop flat_map].
    - split; [intros [= <-]|intros [_ ->]; reflexivity]. split; [contradiction|reflexivity].
    - rewrite IH, fold_left_app, part_loop_fold. split; intros [H1 H2]; (split; [|exact H2]).
      + intros q [<-|Hq]; [discriminate|auto].
      + intros q Hq. apply H1. now right.
    - split; [discriminate|]. intros [H _]. destruct (H None); [now left|reflexivity].
  Qed.

  Definition all_in : Prop := forall k, fltb (rnd k) (g_insert_probability g) = true.

  Lemma try_candidates_spec cands : forall st, NoDup (snd st) ->
    let st' := fold_left (try_candidate g rnd) cands st in
    NoDup (snd st') /\ (forall x, In x (snd st) -> In x (snd st')) /\
    (forall x, In x (snd st') -> In x (snd st) \/ In x cands /\ allowed x) /\
    (all_in -> forall x, In x cands -> allowed x -> In x (snd st')).
  Proof.
    induction cands as [|c cands IH]; intros st HD; cbn zeta; cbn [fold_left]; [simpl; tauto|].
    assert (H : NoDup (snd (try_candidate g rnd st c)) /\ (forall x, In x (snd st) -> In x (snd (try_candidate g rnd st c))) /\
      (forall x, In x (snd (try_candidate g rnd st c)) -> In x (snd st) \/ x = c /\ allowed c) /\
      (all_in -> allowed c -> In c (snd (try_candidate g rnd st c)))).
    { unfold try_candidate, all_in, allowed. destruct (match g_allow g with None => true | Some allow => allow c end) eqn:Ea.
      - assert (Ha : match g_allow g with None => True | Some f => f c = true end) by (destruct (g_allow g); auto). cbn [fst snd].
        destruct (fltb (rnd (fst st)) (g_insert_probability g)) eqn:Er.
        + splits; [now apply set_insert_NoDup|intros x Hx; apply set_insert_In; auto|intros x Hx; apply set_insert_In in Hx as [->|]; auto|intros; apply set_insert_In; auto].
        + splits; auto. intros HA. specialize (HA (fst st)). congruence.
      - assert (Ha : ~ match g_allow g with None => True | Some f => f c = true end) by (destruct (g_allow g); [congruence|discriminate]). splits; auto. tauto. }
    destruct H as (H1 & H2 & H3 & H4). destruct (IH _ H1) as (I1 & I2 & I3 & I4). splits; [exact I1|auto| |].
    - intros x Hx. apply I3 in Hx as [Hx|[Hx Ha]]; [|right; split; [now right|exact Ha]]. apply H3 in Hx as [Hx|[-> Ha]]; [now left|right; split; [now left|exact Ha]].
    - intros HA x [<-|Hx] Ha; auto.
  Qed.

  Lemma listed_loop_spec n token : forall st, NoDup (snd st) ->
    let st' := listed_loop g rnd n token st in
    NoDup (snd st') /\ (forall x, In x (snd st) -> In x (snd st')) /\
    (forall x, In x (snd st') -> In x (snd st) \/ x = token /\ 0 < n) /\
    (all_in -> 0 < n -> In token (snd st')).
  Proof.
    induction n as [|n IH]; intros st HD; cbn zeta; cbn [listed_loop]; [splits; auto; lia|].
    destruct (fltb (rnd (fst st)) (g_insert_probability g)) eqn:Er.
    - cbn [snd]. splits; [now apply set_insert_NoDup|intros x Hx; apply set_insert_In; auto|intros x Hx; apply set_insert_In in Hx as [->|]; auto; right; split; [reflexivity|lia]|intros; apply set_insert_In; auto].
    - destruct (IH (S (fst st), snd st) HD) as (I1 & I2 & I3 & I4). splits; auto.
      + intros x Hx. apply I3 in Hx as [Hx|[-> Hn]]; [now left|right; split; [reflexivity|lia]].
      + intros HA. specialize (HA (fst st)). congruence.
  Qed.

  Lemma listed_spec sample tokens : forall st, NoDup (snd st) ->
    let st' := fold_left (fun st token => listed_loop g rnd (count_matches sample token) token st) tokens st in
    NoDup (snd st') /\ (forall x, In x (snd st) -> In x (snd st')) /\
    (forall x, In x (snd st') -> In x (snd st) \/ In x tokens /\ Substring x sample) /\
    (all_in -> forall x, In x tokens -> Substring x sample -> In x (snd st')).
  Proof.
    induction tokens as [|t tokens IH]; intros st HD; cbn zeta; cbn [fold_left]; [simpl; tauto|].
    destruct (listed_loop_spec (count_matches sample t) t st HD) as (H1 & H2 & H3 & H4). destruct (IH _ H1) as (I1 & I2 & I3 & I4). splits; auto.
    - intros x Hx. apply I3 in Hx as [Hx|[Hx Hs]]; [|right; split; [now right|exact Hs]].
      apply H3 in Hx as [Hx|[-> Hn]]; [now left|right]. apply count_matches_spec in Hn. split; [now left|exact Hn].
    - intros HA x [<-|Hx] Hs; auto. apply I2, H4; [exact HA|]. now apply count_matches_spec.
  Qed.

  (** The parts of a sample in which candidates are looked for. *)
  Definition part_of (sample part : bytes) : Prop := match g_split g with None => part = sample | Some split => In (Some part) (split sample) end.

  Lemma sample_tokens_spec sample set : sample_tokens g rnd sample = Ok set -> NoDup set /\
    (forall x, In x set -> (exists part, part_of sample part /\ In x (part_cands max part) /\ allowed x) \/ In x (g_added g ++ g_suggested g) /\ Substring x sample) /\
    (all_in -> forall x, (exists part, part_of sample part /\ In x (part_cands max part) /\ allowed x) \/ In x (g_added g ++ g_suggested g) /\ Substring x sample -> In x set).
  Proof.
    unfold sample_tokens. intros H.
    assert (Hst : exists cands st, st = fold_left (try_candidate g rnd) cands (0, []) /\ (forall x, In x cands <-> exists part, part_of sample part /\ In x (part_cands max part)) /\
      set = snd (fold_left (fun st token => listed_loop g rnd (count_matches sample token) token st) (g_added g ++ g_suggested g) st)).
    { unfold part_of. destruct (g_split g) as [split|].
      - destruct (parts_loop g rnd (split sample) (0, [])) as [st| | |] eqn:E; try discriminate. injection H as <-. apply parts_loop_fold in E as [HN ->].
        eexists. eexists. split; [reflexivity|]. split; [|reflexivity]. intros x. rewrite in_flat_map. split.
        + intros ([p|] & Hp & Hx); [exists p; auto|contradiction].
        + intros (p & Hp & Hx). exists (Some p). auto.
      - injection H as <-. rewrite part_loop_fold. eexists. eexists. split; [reflexivity|]. split; [|reflexivity]. intros x. split; [intros; exists sample; auto|]. intros (p & -> & Hx). exact Hx. }
    destruct Hst as (cands & st & Est & HC & ->). clear H.
    destruct (try_candidates_spec cands (0, []) (NoDup_nil _)) as (H1 & _ & H3 & H4). rewrite <- Est in *.
    destruct (listed_spec sample (g_added g ++ g_suggested g) st H1) as (I1 & I2 & I3 & I4). splits; [exact I1| |].
    - intros x Hx. apply I3 in Hx as [Hx|Hx]; [left|now right]. apply H3 in Hx as [[]|[Hx Ha]]. apply HC in Hx as (p & Hp & Hx). eauto.
    - intros HA x [(p & Hp & Hx & Ha)|[Hx Hs]]; [|now apply I4]. apply I2, H4; auto. apply HC. eauto.
  Qed.

  Lemma sample_tokens_panic sample : sample_tokens g rnd sample = Panic <-> exists sp, g_split g = Some sp /\ In None (sp sample).
  Proof.
    unfold sample_tokens. destruct (g_split g) as [sp|]; [|split; [discriminate|intros (? & [=] & _)]].
    assert (H : forall parts st, (exists st', parts_loop g rnd parts st = Ok st') /\ ~ In None parts \/ parts_loop g rnd parts st = Panic /\ In None parts).
    { induction parts as [|[p|] parts IH]; intros st; cbn [parts_loop]; [left; split; [eauto|auto]| |right; split; [reflexivity|now left]].
      destruct (IH (part_loop g rnd p st)) as [[H1 H2]|[H1 H2]]; [left|right]; (split; [exact H1|]); [intros [|]; [discriminate|auto]|now right]. }
    destruct (H (sp sample) (0, [])) as [[[st' ->] HN]|[-> HN]]; cbn [bind]; split; try discriminate; [intros (s & [= <-] & Hin); contradiction|intros _; eauto|reflexivity].
  Qed.
End Sample.

(** ** Feeding *)
Section Feed.
  Variable g : generator.
  Hypothesis HD : NoDup (map fst (g_frequencies g)).
  Variables (threads : nat) (samples : list bytes).

  Lemma feed_spec g' : feed_result g threads samples (Ok g') -> exists sets,
    Forall2 (fun sample set => exists rnd set0, (forall k, in_unit (rnd k)) /\ sample_tokens g rnd sample = Ok set0 /\ Permutation set0 set) samples sets /\
    g' = with_frequencies g (g_frequencies g') /\ NoDup (map fst (g_frequencies g')) /\
    (forall x, count_of bytes_eqb x (g_frequencies g') = count_of bytes_eqb x (g_frequencies g) + count_occ bytes_dec (concat sets) x) /\
    (forall x, In x (map fst (g_frequencies g')) <-> In x (map fst (g_frequencies g)) \/ In x (concat sets)).
  Proof.
    intros H. inversion H as [|sets schedule entries HF HI HP E]; subst. exists sets. split; [exact HF|].
    destruct (add_counts_keys _ bytes_eqb_spec entries _ HD) as [HD' HK]. split; [reflexivity|]. split; [exact HD'|].
    assert (Hc : 1 <= par_chunk_size threads (length samples) 5) by (unfold par_chunk_size; lia).
    assert (HS : Permutation (map (fun t => (t, 1)) (concat sets)) schedule).
    { rewrite <- (chunks_concat sets Hc) at 1. rewrite <- (Interleaving_perm HI). clear. induction (chunks _ sets) as [|ch chs IH]; [reflexivity|]. cbn [concat map]. rewrite concat_app, map_app. apply Permutation_app_head. exact IH. }
    split; intros x.
    - cbn [g_frequencies with_frequencies]. rewrite (count_of_adds _ bytes_eqb_spec), <- (total_perm _ x HP), (total_adds _ bytes_eqb_spec), <- (total_perm _ x HS). f_equal. apply total_ones, bytes_eqb_spec.
    - simpl. rewrite HK. apply or_iff_compat_l. transitivity (In x (map fst (add_counts bytes_eqb [] schedule))); [split; apply Permutation_in, Permutation_map; auto using Permutation_sym|].
      destruct (add_counts_keys _ bytes_eqb_spec schedule [] (NoDup_nil _)) as [_ HK']. rewrite HK'. transitivity (In x (map fst schedule)); [simpl; tauto|].
      transitivity (In x (map fst (map (fun t => (t, 1)) (concat sets)))); [split; apply Permutation_in, Permutation_map; auto using Permutation_sym|]. rewrite map_map, map_id. reflexivity.
  Qed.
End Feed.

(** ** Generating *)
Lemma hm_get_In_key {V} k (m : list (bytes * V)) : In k (map fst m) -> exists v, hm_get bytes_eqb k m = Some v.
Proof.
  induction m as [|[k' v] m IH]; [contradiction|]. cbn [map hm_get fst]. destruct (bytes_eqb_spec k k') as [->|N]; [eauto|]. intros [E|H]; [congruence|auto].
Qed.

(** Keep the first occurrence of every string not yet seen. *)
Fixpoint firsts {A} (seen : list bytes) (l : list (bytes * A)) : list (bytes * A) :=
  match l with
  | [] => []
  | x :: l' => if contains (fst x) seen then firsts seen l' else x :: firsts (fst x :: seen) l'
  end.
Definition longer (A : Type) (l : list (bytes * A)) : list (bytes * A) := filter (fun x : bytes * A => 1 <? length (fst x)) l.

Lemma firsts_In {A} (l : list (bytes * A)) : forall seen x, In x (firsts seen l) -> In x l /\ ~ In (fst x) seen.
Proof.
  induction l as [|y l IH]; intros seen x H; [contradiction|]. cbn [firsts] in H. destruct (contains (fst y) seen) eqn:E.
  - apply IH in H as [H1 H2]. split; [now right|exact H2].
  - apply contains_false in E. destruct H as [->|H]; [split; [now left|exact E]|]. apply IH in H as [H1 H2]. split; [now right|]. intros H. apply H2. now right.
Qed.
Lemma firsts_NoDup {A} (l : list (bytes * A)) : forall seen, NoDup (map fst (firsts seen l)).
Proof.
  induction l as [|y l IH]; intros seen; [constructor|]. cbn [firsts]. destruct (contains (fst y) seen); [apply IH|]. cbn [map]. constructor; [|apply IH].
  intros H. apply in_map_iff in H as (x & E & H). apply firsts_In in H as [_ H]. apply H. left. congruence.
Qed.
Lemma firsts_keys {A} (l : list (bytes * A)) : forall seen k, In k (map fst l) -> In k seen \/ In k (map fst (firsts seen l)).
Proof.
  induction l as [|y l IH]; intros seen k H; [contradiction|]. cbn [firsts]. destruct (contains (fst y) seen) eqn:E.
  - apply contains_spec in E. destruct H as [<-|H]; [now left|auto].
  - destruct H as [<-|H]; [right; now left|]. destruct (IH (fst y :: seen) k H) as [[<-|H']|H']; [right; now left|now left|right; now right].
Qed.

Definition weigh (x : bytes * (nat * bool)) : scored_token := ST (fst x) (f64_of_nat (fst (snd x) * length (fst x))) (snd (snd x)).

Lemma push_loop_spec size items : forall seen vocab, 
  push_loop size (map (fun x => (fst x, Some (fst (snd x)), snd (snd x))) items) (seen, vocab) =
  Ok (rev (map fst (firstn (size - length vocab) (firsts seen (longer items)))) ++ seen, vocab ++ map weigh (firstn (size - length vocab) (firsts seen (longer items)))).
Proof.
  induction items as [|[t [f k]] items IH]; intros seen vocab.
  - simpl. rewrite firstn_nil, app_nil_r. reflexivity.
  - cbn [map push_loop fst snd]. destruct (Nat.leb_spec size (length vocab)) as [Hle|Hgt].
    + replace (size - length vocab) with 0 by lia. simpl. now rewrite app_nil_r.
    + unfold longer in *. cbn [filter fst]. destruct (1 <? length t) eqn:El; [|rewrite Bool.andb_false_r; apply IH]. rewrite Bool.andb_true_r. cbn [firsts fst].
      destruct (contains t seen) eqn:Ec; cbn [negb]; [apply IH|]. rewrite IH. rewrite app_length. cbn [length]. destruct (size - length vocab) as [|n] eqn:En; [lia|].
      replace (size - (length vocab + 1)) with n by lia. cbn [firstn map rev fst]. rewrite <- !app_assoc. reflexivity.
Qed.

Lemma push_loop_app size a b : forall st, push_loop size (a ++ b) st = (st' <- push_loop size a st ;; push_loop size b st').
Proof.
  induction a as [|[[t f] k] a IH]; intros [seen vocab]; [reflexivity|]. cbn [app push_loop]. destruct (Nat.leb_spec size (length vocab)) as [Hle|Hgt].
  - cbn [bind]. destruct b as [|[[t' f'] k'] b]; [reflexivity|]. cbn [push_loop]. apply Nat.leb_le in Hle. now rewrite Hle.
  - destruct (negb (contains t seen) && (1 <? length t)); [destruct f; [apply IH|reflexivity]|apply IH].
Qed.

Lemma f64_of_nat_not_nan n : f_is_nan (f64_of_nat n) = false.
Proof.
  unfold f64_of_nat, f64_of_Z, f64_of_Z_exp, f_is_nan. apply BinarySingleNaN.is_nan_binary_normalize.
Qed.

Section Gen.
  Variable ln : f64 -> f64.
  Variables s1 s2 : sorter.
  Hypothesis H1 : valid_sorter s1.
  Hypothesis H2 : valid_sorter s2.
  Variable g : generator.
  (** What [new] and [feed] guarantee. *)
  Hypothesis HD : NoDup (map fst (g_frequencies g)).
  Hypothesis HL : forall t, In t (g_added g ++ g_suggested g) -> In t (map fst (g_frequencies g)).

  Definition byte_tokens (w : nat) : list scored_token := map (fun b => ST [b] (f64_of_nat w) true) first_bytes.
  Definition frequency (t : bytes) : nat := count_of bytes_eqb t (g_frequencies g).

  Lemma generate_spec size r : generate_result ln s1 s2 g size r -> exists order highest weighted,
    Permutation (g_frequencies g) order /\ StronglySorted (fun a b => snd b <= snd a) order /\
    highest = match order with [] => 1 | e :: _ => snd e end /\
    let picks := firstn (size - 255) (firsts (map (fun b => [b]) first_bytes) (longer (
      map (fun t => (t, (frequency t, true))) (g_added g) ++ map (fun t => (t, (frequency t, false))) (g_suggested g) ++
      map (fun e => (fst e, (frequency (fst e), false))) order))) in
    Permutation (byte_tokens highest ++ map weigh picks) weighted /\ StronglySorted (fun a b => fleb (st_score b) (st_score a) = true) weighted /\
    r = if existsb (fun t => negb (f_is_normal (st_score t))) (logprobs ln weighted) then Panic else Ok (logprobs ln weighted).
  Proof.
    intros (entries & P & ->). unfold generate_from. destruct (sort_by_nat_desc_ok snd entries H1) as [P' S']. set (order := sort_by_nat_desc s1 snd entries) in *.
    exists order, (match order with [] => 1 | e :: _ => snd e end). cbn zeta.
    assert (PO : Permutation (g_frequencies g) order) by (etransitivity; eassumption).
    assert (HF : forall t, In t (map fst (g_frequencies g)) -> hm_get bytes_eqb t (g_frequencies g) = Some (frequency t)).
    { intros t Ht. destruct (hm_get_In_key _ _ Ht) as [v Hv]. unfold frequency, count_of. now rewrite Hv. }
    set (seen := map (fun b => [b]) first_bytes).
    set (items := map (fun t => (t, (frequency t, true))) (g_added g) ++ map (fun t => (t, (frequency t, false))) (g_suggested g) ++ map (fun e => (fst e, (frequency (fst e), false))) order).
    replace (match order with [] => 1 | (_, freq) :: _ => freq end) with (match order with [] => 1 | e :: _ => snd e end) by (destruct order as [|[? ?] ?]; reflexivity).
    set (highest := match order with [] => 1 | e :: _ => snd e end). fold (byte_tokens highest).
    match goal with |- context [push_loop size ?l (seen, _)] => set (listed := l) end.
    match goal with |- context [bind (push_loop size listed ?st0) (fun x => bind (push_loop size ?l x) ?k)] => set (rest := l); set (cont := k);
      replace (bind (push_loop size listed st0) (fun y => bind (push_loop size rest y) cont)) with (bind (push_loop size (listed ++ rest) st0) cont)
        by (rewrite push_loop_app; now destruct (push_loop size listed st0)) end.
    assert (EI : listed ++ rest = map (fun x => (fst x, Some (fst (snd x)), snd (snd x))) items).
    { unfold listed, rest, items. rewrite !map_app, !map_map, <- app_assoc. f_equal; [|f_equal].
      - apply map_ext_in. intros t Ht. simpl. rewrite HF; [reflexivity|]. apply HL, in_or_app. now left.
      - apply map_ext_in. intros t Ht. simpl. rewrite HF; [reflexivity|]. apply HL, in_or_app. now right.
      - apply map_ext_in. intros [t n] Ht. simpl. f_equal. f_equal. assert (Hin : In (t, n) (g_frequencies g)) by (apply (Permutation_in _ (Permutation_sym PO)); exact Ht).
        apply (hm_In_get bytes_eqb_spec) in Hin; [|exact HD]. unfold frequency, count_of. now rewrite Hin. }
    rewrite EI, push_loop_spec. replace (length (byte_tokens highest)) with 255 by reflexivity. set (picks := firstn (size - 255) _). unfold cont. cbn [bind snd].
    set (vocab := byte_tokens highest ++ map weigh picks).
    assert (HN : forall t, In t vocab -> f_is_nan (st_score t) = false).
    { intros t Ht. apply in_app_or in Ht as [Ht|Ht]; apply in_map_iff in Ht as (x & <- & _); apply f64_of_nat_not_nan. }
    destruct (H2 (fun a b => fleb (st_score b) (st_score a)) vocab) as [PV SV].
    - intros a b Ha Hb. apply fleb_total; apply HN; assumption.
    - intros a b c Ha Hb Hc Hab Hbc. eapply fleb_trans; eassumption.
    - eexists. split; [exact PO|]. split; [exact S'|]. split; [reflexivity|]. split; [exact PV|]. split; [exact SV|]. reflexivity.
  Qed.
End Gen.

(** The generator keeps its promises. *)
Definition gen_ok (g : generator) : Prop :=
  NoDup (map fst (g_frequencies g)) /\ forall t, In t (g_added g ++ g_suggested g) -> In t (map fst (g_frequencies g)).
Lemma gen_new_ok max p split allow added suggested : gen_ok (gen_new max p split allow added suggested).
Proof.
  unfold gen_ok, gen_new. cbn [g_frequencies g_added g_suggested].
  destruct (add_counts_keys _ bytes_eqb_spec (map (fun t => (t, 1)) added) [] (NoDup_nil _)) as [D1 K1].
  destruct (add_counts_keys _ bytes_eqb_spec (map (fun t => (t, 1)) suggested) _ D1) as [D2 K2]. split; [exact D2|].
  intros t Ht. rewrite K2, K1, !map_map, !map_id. apply in_app_or in Ht as [|]; auto.
Qed.
Lemma feed_ok g threads samples g' : gen_ok g -> feed_result g threads samples (Ok g') -> gen_ok g'.
Proof.
  intros [HD HL] H. destruct (feed_spec HD H) as (sets & _ & E & HD' & _ & HK). split; [exact HD'|]. rewrite E. cbn [g_added g_suggested with_frequencies g_frequencies].
  intros t Ht. rewrite HK. left. auto.
Qed.
