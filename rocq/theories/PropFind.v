(** What the expressions find in a text: C59. *)
From Coq.Strings Require Import String.
From Verif Require Import Base BaseProofs F64 Utf8 SpecUtf8 Utf8Proofs Trie Model Processor Tokenizer SpecJson Json JsonProofs JsonWrite SpecSerde Serde SerdeProofs Sort SortProofs Par ParProofs Filter Merge Generate Mine MineProofs PropPar Lattice Prune Patterns Cli SpecCli CliProofs PropCli SpecRegex Regex RegexProofs RegexCompose RegexJoin PropRegex SpecFind Find FindProofs PropFiles.
Set Implicit Arguments.
Local Open Scope list_scope.
Notation length := List.length (only parsing).
Local Ltac splits := repeat match goal with |- _ /\ _ => split end.

(** ** The stretches of a text *)
(** [part] is the text of the characters from [fst m] (inclusive) to [snd m] (exclusive). *)
Definition Stretch (w : list N) (m : nat * nat) (part : bytes) : Prop :=
  exists a cs b, w = a ++ cs ++ b /\ length a = fst m /\ length (a ++ cs) = snd m /\ part = encode_string cs.
Lemma slice_stretch w i j : i <= j <= length w -> Stretch w (i, j) (encode_string (slice w (i, j))).
Proof.
  intros H. unfold slice. cbn [fst snd]. exists (firstn i w), (firstn (j - i) (skipn i w)), (skipn (j - i) (skipn i w)). rewrite !firstn_skipn. splits; auto.
  - rewrite firstn_length. cbn. lia.
  - rewrite app_length, !firstn_length, skipn_length. cbn. lia.
Qed.
Lemma chars_scalar s : Forall scalar (chars s).
Proof.
  unfold chars. generalize (length s) at 1. intros fuel. revert s. induction fuel as [|fuel IH]; intros s; [constructor|]. destruct s as [|b s]; [constructor|].
  cbn [chars_fuel]. destruct (utf8_step (b :: s)) as [n|n] eqn:E; [|constructor]. constructor; auto.
  apply utf8_step_good in E. destruct E as (c & Hc & -> & E). rewrite E, firstn_app, firstn_all, Nat.sub_diag, app_nil_r. now rewrite char_value_encode.
Qed.
Lemma scalar_slice w m : Forall scalar w -> Forall scalar (slice w m).
Proof. intros H. unfold slice. rewrite <- (firstn_skipn (fst m) w) in H. apply Forall_app in H as [_ H]. rewrite <- (firstn_skipn (snd m - fst m) (skipn (fst m) w)) in H. now apply Forall_app in H as [H _]. Qed.

(** ** C59 *)
(** Where an expression matches, one match is chosen, and it is a match. *)
Theorem C59_choice : forall w r i, (forall j, Choice w r i j -> Match w r i j) /\ ((exists j, Match w r i j) -> exists j, Choice w r i j) /\
  (forall j j', Choice w r i j -> Choice w r i j' -> j = j').
Proof. intros w r i. splits. intros j; apply choice_match. intros (j & H). eapply match_choice; eauto. intros j j'. apply choice_fun. Qed.
Print Assumptions C59_choice.

(** [find_iter] finds the chosen matches from the left to the right, and nothing else. *)
Theorem C59_find : forall r s, exists l, (forall l', Finds (chars s) r false 0 l' <-> l' = l) /\ Forall2 (Stretch (chars s)) l (find_iter r s).
Proof.
  intros r s. exists (find_all (chars s) r). split.
  - intros l'. split. intros H. eapply Finds_fun; [exact H|apply find_all_finds]. intros ->. apply find_all_finds.
  - unfold find_iter. assert (Forall (fun m => fst m <= snd m <= length (chars s)) (find_all (chars s) r)) as HF.
    { pose proof (find_all_finds (chars s) r) as H. induction H as [|b start i j l H1 H2 H3 H4 H IH|]; auto. constructor; auto. apply (Match_le (choice_match H3)). }
    induction HF as [|[i j] l H _ IH]; constructor; auto. apply slice_stretch. exact H.
Qed.
Print Assumptions C59_find.

(** What is found does not overlap; and every match begins in or at the end of something that is found. *)
Theorem C59_cover : forall w r l, Finds w r false 0 l ->
  Forall (fun m => Choice w r (fst m) (snd m)) l /\ StronglySorted (fun m m' => snd m <= fst m' /\ snd m < snd m') l /\
  (forall i j, Match w r i j -> exists m, In m l /\ fst m <= i <= snd m).
Proof.
  assert (forall w r b start l, Finds w r b start l ->
    Forall (fun m => Choice w r (fst m) (snd m)) l /\ Forall (fun m => start <= fst m <= snd m /\ (b = true -> start < snd m)) l /\
    StronglySorted (fun m m' => snd m <= fst m' /\ snd m < snd m') l /\
    (forall i j, start + (if b then 1 else 0) <= i -> Match w r i j -> exists m, In m l /\ fst m <= i <= snd m)) as HX.
  { intros w r b start l H. induction H as [b start H|b start i j l H1 H2 H3 H4 H (I1 & I2 & I3 & I4)|start l H1 H (I1 & I2 & I3 & I4)].
    - splits; auto; try constructor. intros i j Hi Hm. exfalso. eapply H; [|exact Hm]. lia.
    - pose proof (Match_le (choice_match H3)) as Hb. splits.
      + constructor; auto.
      + constructor. { cbn. split; [lia|]. intros Hbt. destruct (Nat.eq_dec i start); [|lia]. destruct (Nat.eq_dec j start); [|lia]. exfalso. apply H4. auto. }
        eapply Forall_impl; [|exact I2]. cbn. intros m (G1 & G2). specialize (G2 eq_refl). split; lia.
      + constructor; auto. eapply Forall_impl; [|exact I2]. cbn. intros m (G1 & G2). specialize (G2 eq_refl). lia.
      + intros p q Hp Hm. destruct (le_lt_dec i p) as [Hip|Hip].
        * destruct (le_lt_dec p j) as [Hpj|Hpj]. { exists (i, j). split; [left; auto|cbn; lia]. }
          destruct (I4 p q) as (m & G1 & G2); auto; [lia|]. exists m. split; auto. right; auto.
        * exfalso. eapply H2; [|exact Hm]. lia.
    - splits; auto.
      + eapply Forall_impl; [|exact I2]. cbn. intros m (G1 & _). split; lia.
      + intros p q Hp Hm. apply (I4 p q); auto. lia. }
  intros w r l H. destruct (HX w r false 0 l H) as (H1 & _ & H2 & H3). splits; auto. intros i j. apply H3. lia.
Qed.
Print Assumptions C59_cover.

(** ** Several patterns *)
(** [First rs w i j]: the choice of the first of the expressions that matches at [i]. *)
Definition First (rs : list re) (w : list N) (i j : nat) : Prop :=
  exists before r after, rs = before ++ r :: after /\ Choice w r i j /\ forall q x, In q before -> ~ Match w q i x.
Lemma choice_alt w a b i j : Choice w (Alt a b) i j <-> Choice w a i j \/ (forall x, ~ Match w a i x) /\ Choice w b i j.
Proof.
  rewrite !choice_spec. cbn [tries]. split.
  - intros [Hi H]. destruct (tries w a i) as [|x l] eqn:E; [right|left; auto]. splits; auto. apply no_tries; auto.
  - intros [[Hi H]|[H1 [Hi H]]]; split; auto.
    + destruct (tries w a i); [discriminate H|exact H].
    + destruct (tries w a i) as [|x l] eqn:E; auto. exfalso. apply (H1 x). apply tries_spec; auto. rewrite E. left; auto.
Qed.
Lemma First_cons r rs w i j : First (r :: rs) w i j <-> Choice w r i j \/ (forall x, ~ Match w r i x) /\ First rs w i j.
Proof.
  split.
  - intros (before & q & after & E & H1 & H2). destruct before as [|b before]; injection E as -> ->; auto. right. split. intros x. apply H2. left; auto.
    exists before, q, after. splits; auto. intros y x Hy. apply H2. right; auto.
  - intros [H|[H1 (before & q & after & -> & H2 & H3)]].
    + exists [], r, rs. splits; auto.
    + exists (r :: before), q, after. splits; auto. intros y x [<-|Hy]; auto.
Qed.
Lemma First_app rs rs' w i j : First (rs ++ rs') w i j <-> First rs w i j \/ (forall q x, In q rs -> ~ Match w q i x) /\ First rs' w i j.
Proof.
  induction rs as [|r rs IH]; cbn [app].
  - split; [intros H; right; split; auto; intros q x []|intros [(b & q & a & E & _)|[_ H]]; auto; destruct b; discriminate E].
  - rewrite !First_cons, IH. split.
    + intros [H|[H1 [H2|[H2 H3]]]]; auto. right. split; auto. intros q x [<-|Hq]; auto.
    + intros [[H|[H1 H2]]|[H1 H2]]; auto. right. split. intros x. apply H1. left; auto. right. split; auto. intros q x Hq. apply H1. right; auto.
Qed.
Lemma First_one r w i j : First [r] w i j <-> Choice w r i j.
Proof. rewrite First_cons. split; auto. intros [H|[_ (b & q & a & E & _)]]; auto. destruct b; discriminate E. Qed.
Lemma choice_alt_of w i j alts : forall last, Choice w (alt_of alts last) i j <-> First (rev alts ++ [last]) w i j.
Proof.
  unfold alt_of. induction alts as [|a alts IH]; intros last; cbn [fold_left rev app]. { now rewrite First_one. }
  rewrite IH, !First_app. setoid_rewrite First_one. rewrite choice_alt. split.
  - intros [H|[H1 [H2|[H2 H3]]]].
    + left. left. auto.
    + left. right. auto.
    + right. split; auto. intros q x Hq. apply in_app_iff in Hq. destruct Hq as [Hq|[<-|[]]]; auto.
  - intros [[H|[H1 H2]]|[H1 H2]]; auto. right. split. intros q x Hq. apply H1. apply in_app_iff; auto. right. split; auto. intros x. apply H1. apply in_app_iff. right; left; auto.
Qed.
Lemma choice_alts w i j rs : forall alts, rs <> [] -> Choice w (alts_re false alts rs) i j <-> First (rev alts ++ rs) w i j.
Proof.
  induction rs as [|r rs IH]; intros alts Hne; [congruence|]. destruct rs as [|r2 rs].
  - cbn [alts_re body]. apply choice_alt_of.
  - change (alts_re false alts (r :: r2 :: rs)) with (alts_re false (r :: alts) (r2 :: rs)). rewrite IH by discriminate. cbn [rev]. rewrite <- app_assoc. reflexivity.
Qed.

(** ** Runs *)
Lemma times_run p w : forall fuel i, i <= length w -> length w - i < fuel ->
  forall j, hd_error (plus (tries w (One p)) true fuel i) = Some j <->
    i < j <= length w /\ (forall q, i <= q < j -> exists c, nth_error w q = Some c /\ p c = true) /\ (forall c, nth_error w j = Some c -> p c = false).
Proof.
  induction fuel as [|fuel IH]; intros i Hi Hf j; [lia|]. cbn [plus].
  change (tries w (One p) i) with (match nth_error w i with Some c => if p c then [S i] else [] | None => [] end). destruct (nth_error w i) as [c|] eqn:E.
  - assert (i < length w) as Hlt by (apply nth_error_Some; congruence). destruct (p c) eqn:Ep.
    + cbn [flat_map]. rewrite app_nil_r. rewrite (proj2 (Nat.eqb_neq (S i) i)) by lia. unfold more_or.
      specialize (IH (S i) ltac:(lia) ltac:(lia)). destruct (plus (tries w (One p)) true fuel (S i)) as [|j0 l] eqn:E2.
      * cbn [app hd_error]. assert (forall c, nth_error w (S i) = Some c -> p c = false) as Hn.
        { intros d Hd. destruct (p d) eqn:Ed; auto. exfalso. assert (S i < length w) by (apply nth_error_Some; congruence).
          assert (In (S (S i)) (plus (tries w (One p)) true fuel (S i))) as Hin.
          { apply plus_spec; try lia. intros; now apply tries_spec. exists 0. econstructor. econstructor; eauto. constructor. lia. }
          rewrite E2 in Hin. destruct Hin. }
        split.
        -- intros H. injection H as <-. splits; auto; try lia. intros q Hq. assert (q = i) by lia. subst. eauto.
        -- intros (H1 & H2 & H3). f_equal. destruct (Nat.eq_dec j (S i)); auto. exfalso. destruct (H2 (S i)) as (d & Hd & Ed); [lia|]. rewrite (Hn _ Hd) in Ed. discriminate.
      * cbn [app hd_error] in *. etransitivity; [apply IH|]. split.
        -- intros (H1 & H2 & H3). splits; auto; try lia. intros q Hq. destruct (Nat.eq_dec q i) as [->|]; eauto. apply H2. lia.
        -- intros (H1 & H2 & H3). destruct (Nat.eq_dec j (S i)) as [->|].
           ++ exfalso. destruct (IH j0) as [IH1 _]. destruct (IH1 eq_refl) as (G1 & G2 & _). destruct (G2 (S i)) as (d & Hd & Ed); [lia|]. rewrite (H3 _ Hd) in Ed. discriminate.
           ++ splits; auto; try lia. intros q Hq. apply H2. lia.
    + cbn. split; [discriminate|]. intros (H1 & H2 & _). destruct (H2 i) as (d & Hd & Ed); [lia|]. congruence.
  - cbn. split; [discriminate|]. intros (H1 & H2 & _). destruct (H2 i) as (d & Hd & Ed); [lia|]. congruence.
Qed.
Lemma choice_run p w i j : Choice w (Rep 1 None true (One p)) i j <->
  i < j <= length w /\ (forall q, i <= q < j -> exists c, nth_error w q = Some c /\ p c = true) /\ (forall c, nth_error w j = Some c -> p c = false).
Proof.
  rewrite choice_spec. assert (tries w (Rep 1 None true (One p)) i = plus (tries w (One p)) true (S (length w)) i) as -> by (cbn [tries times]; cbn [flat_map]; apply app_nil_r).
  split.
  - intros [Hi H]. apply times_run in H; auto; lia.
  - intros H. assert (i <= length w) by lia. split; auto. apply times_run; auto; lia.
Qed.
Lemma match_run p w i j : Match w (Rep 1 None true (One p)) i j -> exists c, nth_error w i = Some c /\ p c = true.
Proof.
  intros H. inversion H as [| | | | | |? ? ? ? n ? ? HI Hn _]; subst. inversion HI as [|? ? ? ? ? HM ?]; subst; [lia|]. inversion HM; subst. eauto.
Qed.
Lemma run_match p w i c : nth_error w i = Some c -> p c = true -> Match w (Rep 1 None true (One p)) i (S i).
Proof.
  intros H Hp. assert (i < length w) by (apply nth_error_Some; congruence). apply M_rep with (n := 1); cbn; auto. econstructor. econstructor; eauto. constructor. lia.
Qed.
Lemma skipn_nth A (l : list A) : forall i c, nth_error l i = Some c -> skipn i l = c :: skipn (S i) l.
Proof. induction l as [|x l IH]; intros [|i] c H; try discriminate H. now injection H as ->. now apply IH. Qed.
Lemma skip_skip A n : forall m (l : list A), skipn n (skipn m l) = skipn (n + m) l.
Proof. intros m. induction m as [|m IH]; intros l. now rewrite Nat.add_0_r. rewrite Nat.add_succ_r. destruct l. now rewrite !skipn_nil. apply IH. Qed.
(** The runs of a text, from a position where no run goes on. *)
Lemma find_runs p w : forall b start l, Finds w (Rep 1 None true (One p)) b start l -> start <= length w ->
  Runs p (skipn start w) (map (slice w) l).
Proof.
  assert (forall n start, length w - start = n -> start <= length w -> (forall i c, start <= i -> nth_error w i = Some c -> p c = false) -> Runs p (skipn start w) []) as HN.
  { induction n as [|n IH]; intros start Hn Hs H.
    - rewrite skipn_all2 by lia. constructor.
    - destruct (nth_error w start) as [c|] eqn:E. 2: { apply nth_error_None in E. lia. }
      rewrite (@skipn_nth _ w start _ E). constructor. { apply (H start); auto. } apply IH; try lia. intros i d Hi. apply H. lia. }
  assert (forall l j n start, j - start = n -> start <= j <= length w -> (forall i c, start <= i < j -> nth_error w i = Some c -> p c = false) -> Runs p (skipn j w) l ->
    Runs p (skipn start w) l) as HS.
  { intros l j. induction n as [|n IH]; intros start Hn Hs H HR.
    - assert (start = j) by lia. subst. auto.
    - destruct (nth_error w start) as [c|] eqn:E. 2: { apply nth_error_None in E. lia. }
      rewrite (@skipn_nth _ w start _ E). constructor. { apply (H start); auto; lia. } apply IH; try lia; auto. intros i d Hi. apply H. lia. }
  induction 1 as [b start H|b start i j l H1 H2 H3 H4 H IH|start l H1 H IH]; intros Hs.
  - eapply HN; eauto. intros i c Hi Hc. destruct (p c) eqn:Ep; auto. exfalso. eapply H; [exact Hi|]. eapply run_match; eauto.
  - apply choice_run in H3. destruct H3 as (G1 & G2 & G3). apply HS with (j := i) (n := i - start); auto; try lia.
    { intros q c Hq Hc. destruct (p c) eqn:Ep; auto. exfalso. eapply H2; [exact Hq|]. eapply run_match; eauto. }
    cbn [map]. rewrite <- (firstn_skipn (j - i) (skipn i w)). rewrite skip_skip. replace (j - i + i) with j by lia. change (firstn (j - i) (skipn i w)) with (slice w (i, j)).
    assert (forall n, i + n <= j -> Forall (fun c => p c = true) (firstn n (skipn i w))) as HF.
    { clear - G2. intros n. revert i G2. induction n as [|n IH]; intros i G2 Hn; [constructor|]. destruct (G2 i) as (c & Hc & Ec); [lia|]. rewrite (@skipn_nth _ w i _ Hc). cbn [firstn].
      constructor; auto. apply IH; [|lia]. intros q Hq. apply G2. lia. }
    apply R_run.
    + unfold slice. cbn [fst snd]. destruct (G2 i) as (c & Hc & _); [lia|]. rewrite (@skipn_nth _ w i _ Hc). destruct (j - i) eqn:E; [lia|]. discriminate.
    + unfold slice. cbn [fst snd]. apply HF. lia.
    + destruct (nth_error w j) as [c|] eqn:E. rewrite (@skipn_nth _ w j _ E). auto. apply nth_error_None in E. rewrite skipn_all2 by lia. exact I.
    + apply IH. lia.
  - apply choice_run in H1. lia.
Qed.

(** A repeated class finds the maximal stretches of its characters. *)
Theorem C59_runs : forall p s, exists l, Runs p (chars s) l /\ find_iter (Rep 1 None true (One p)) s = map encode_string l.
Proof.
  intros p s. exists (map (slice (chars s)) (find_all (chars s) (Rep 1 None true (One p)))). split.
  - apply (@find_runs p (chars s) false 0 _ (find_all_finds _ _)). lia.
  - unfold find_iter. rewrite map_map. reflexivity.
Qed.
Print Assumptions C59_runs.

Section C59.
  (** The tables of Unicode. *)
  Variable same_letter : N -> list N.
  Variables (unicode_digit unicode_word : N -> bool).
  Variable unicode_class : list N -> option (N -> bool).
  Variables (alphabetic alphanumeric : N -> bool).
  Notation parse := (parse_regex same_letter unicode_digit unicode_word unicode_class alphabetic alphanumeric).
  Notation new := (regex_new same_letter unicode_digit unicode_word unicode_class alphabetic alphanumeric find_iter).
  Notation means := (Means same_letter unicode_digit unicode_word unicode_class alphabetic alphanumeric).

  (** Some patterns of the program find the maximal stretches of letters. *)
  Theorem C59_words : forall name ranges, In (name, ranges) [(B "lowercase-word", [(0x61, 0x7A)]); (B "uppercase-word", [(0x41, 0x5A)]);
      (B "word", [(0x41, 0x5A); (0x61, 0x7A)]); (B "chinese-word", [(0x3400, 0x4DBF); (0x4E00, 0x9FFF)])]%N ->
    exists accepts found, new (text_of name) = Some (accepts, found) /\
      forall s, exists l, Runs (fun c => existsb (fun r => (fst r <=? c)%N && (c <=? snd r)%N) ranges) (chars s) l /\ found s = map encode_string l.
  Proof.
    assert (forall name p q, parse (chars (text_of name)) = Some (Rep 1 None true (One p), []) -> (forall c, p c = q c) ->
      exists accepts found, new (text_of name) = Some (accepts, found) /\ forall s, exists l, Runs q (chars s) l /\ found s = map encode_string l) as HX.
    { intros name p q Hp Hq. unfold regex_new. rewrite Hp. do 2 eexists. split; [reflexivity|]. intros s. destruct (C59_runs p s) as (l & H1 & H2). exists l. split; auto.
      clear - H1 Hq. induction H1 as [|c cs l Hc H IH|cs rest l Hne HF Hr H IH]; [constructor|constructor; auto; now rewrite <- Hq|constructor; auto].
      - eapply Forall_impl; [|exact HF]. intros c Hc. cbn in *. now rewrite <- Hq.
      - destruct rest; auto. now rewrite <- Hq. }
    Local Arguments N.leb : simpl nomatch. Local Arguments N.eqb : simpl nomatch.
    intros name ranges [E|[E|[E|[E|[]]]]]; injection E as <- <-;
      match goal with |- context [chars (text_of ?n)] => idtac | |- exists a f, regex_new _ _ _ _ _ _ _ (text_of ?n) = _ /\ _ =>
        let y := eval vm_compute in (chars (text_of n)) in assert (chars (text_of n) = y) as Hcs by (vm_compute; reflexivity) end;
      (eapply HX; [rewrite Hcs; cbn; reflexivity|]); intros c; unfold fold_class, union, between, negate; cbn [existsb fst snd].
    all: repeat match goal with |- context [N.leb ?a ?b] => destruct (N.leb a b) end; reflexivity.
  Qed.

  (** In the expression of the mine command the first pattern that matches at a place wins. *)
  Theorem C59_patterns : forall ts rs, Forall Utf8 ts -> means ts rs -> Forall (fun t => Comments_end (chars t)) ts -> ForallOrdPairs Apart (map snd rs) -> ts <> [] ->
    exists r names, parse (chars (mine_text ts)) = Some (r, names) /\ forall w i j, Choice w r i j <-> First (map fst rs) w i j.
  Proof.
    intros ts rs HU HM HC HA Hne. rewrite mine_join, chars_join by auto.
    rewrite (@joined_regex same_letter unicode_digit unicode_word unicode_class alphabetic alphanumeric false (map chars ts) rs).
    2: { clear - HM. induction HM; constructor; auto. }
    2: { clear - HC. induction HC; constructor; auto. now apply Comments_end_Safe. }
    pose proof (all_names_ok (map snd rs) []) as [_ HN]. specialize (HN (conj (Apart_nil _) HA)).
    destruct (all_names [] (map snd rs)) as [names|]; [|congruence]. do 2 eexists. split; [reflexivity|]. intros w i j.
    destruct rs as [|p rs]; [inversion HM; congruence|]. apply choice_alts. discriminate.
  Qed.

  (** [Found rs s parts]: [parts] are found in [s]: at the first place where one of the expressions matches, what the first of them chooses; then on from there.  The expressions are one after the other in [r]. *)
  Definition Found (rs : list re) (s : bytes) (parts : list bytes) : Prop :=
    exists r l, (forall w i j, Match w r i j <-> exists p, In p rs /\ Match w p i j) /\ (forall w i j, Choice w r i j <-> First rs w i j) /\
      Finds (chars s) r false 0 l /\ Forall2 (Stretch (chars s)) l parts.

  (** What the mine command writes, in terms of the patterns: the idioms that are found most often. *)
  Theorem C59_mine : forall fs writable parse_f64 normalize fmt_num num_val threads s1 codec num_idioms output train names path contents,
    valid_sorter s1 -> num_codec fmt_num num_val codec ->
    Forall (fun n => Utf8 (text_of n) /\ Comments_end (chars (text_of n))) names ->
    mine_cmd fs writable parse_f64 normalize fmt_num new threads s1 num_idioms output train names (Ok (path, contents)) ->
    path = output /\
    exists sources rs parts tokens, load_sources fs parse_f64 normalize train [] = Ok sources /\ means (map text_of names) rs /\
      Forall2 (Found (map fst rs)) (List.concat (map so_samples sources)) parts /\
      Token_file num_val (Some contents) tokens /\ length tokens <= num_idioms /\ NoDup tokens /\
      let count := count_occ bytes_dec (List.concat parts) in
      Forall (fun t => 0 < count t) tokens /\ StronglySorted (fun a b => count b <= count a) tokens /\
      (forall t, 0 < count t -> ~ In t tokens -> length tokens = num_idioms /\ Forall (fun t' => count t <= count t') tokens).
  Proof.
    intros fs writable parse_f64 normalize fmt_num num_val threads s1 codec num_idioms output train names path contents Hs Hc HF H.
    assert (names <> []) as Hne. { intros ->. destruct train; apply then_inv in H as (x & Hx & _); discriminate Hx. }
    assert (forall text re sample part, new text = Some re -> In part (snd re sample) -> Utf8 part) as HP.
    { intros text re sample part Hre Hin. unfold regex_new in Hre. destruct (parse (chars text)) as [[r n]|]; [|discriminate Hre]. injection Hre as <-. cbn [snd] in Hin.
      unfold find_iter in Hin. apply in_map_iff in Hin as (m & <- & _). exists (slice (chars sample) m). split; auto. apply scalar_slice, chars_scalar. }
    destruct (C58_mine (fun _ => None) Hs Hc HP H) as (-> & sources & ts & re & tokens & H1 & H2 & H3 & H4 & H5 & H6 & H7 & H8 & H9).
    split; auto. apply load_patterns_texts in H2 as [-> [rs HM]]. set (ts := map text_of names) in *.
      assert (Forall Utf8 ts) as HU. { apply Forall_map. eapply Forall_impl; [|exact HF]. cbn. tauto. }
      assert (Forall (fun t => Comments_end (chars t)) ts) as HC. { apply Forall_map. eapply Forall_impl; [|exact HF]. cbn. tauto. }
      assert (ts <> []) as Hnt. { intros E. apply map_eq_nil in E. auto. }
      unfold regex_new in H3. destruct (parse (chars (mine_text ts))) as [[r n]|] eqn:Ep; [|discriminate H3]. injection H3 as <-. cbn [snd] in *.
      assert (ForallOrdPairs Apart (map snd rs)) as HA.
      { rewrite mine_join, chars_join in Ep by auto. rewrite (@joined_regex same_letter unicode_digit unicode_word unicode_class alphabetic alphanumeric false (map chars ts) rs) in Ep.
        2: { clear - HM. induction HM; constructor; auto. }
        2: { clear - HC. induction HC; constructor; auto. now apply Comments_end_Safe. }
        apply (proj1 (all_names_ok (map snd rs) [])). intros E. rewrite E in Ep. discriminate Ep. }
      destruct (C50_mine HU HM HC HA Hnt) as (r1 & n1 & E1 & HMa). rewrite Ep in E1. injection E1 as <- <-.
      destruct (C59_patterns HU HM HC HA Hnt) as (r1 & n1 & E1 & HCh). rewrite Ep in E1. injection E1 as <- <-.
      exists sources, rs, (map (find_iter r) (List.concat (map so_samples sources))), tokens. splits; auto.
      + clear - HMa HCh. induction (List.concat (map so_samples sources)) as [|s l IH]; constructor; auto. destruct (C59_find r s) as (st & G1 & G2).
        exists r, st. splits; auto; [|now apply G1]. intros w i j. rewrite HMa. split.
        * intros (p & Hp & Hm). exists (fst p). split; auto. now apply in_map.
        * intros (p & Hp & Hm). apply in_map_iff in Hp as (q & <- & Hq). eauto.
      + rewrite <- flat_map_concat_map. exact H7.
      + rewrite <- flat_map_concat_map. exact H8.
      + rewrite <- flat_map_concat_map. exact H9.
  Qed.
End C59.
Print Assumptions C59_words.
Print Assumptions C59_patterns.
Print Assumptions C59_mine.

(** *** Examples *)
Definition exr_new := regex_new (fun _ => []) (fun _ => false) (fun _ => false) (fun _ => None) (fun _ => false) (fun _ => false) find_iter.
Definition exr_find (text s : bytes) : list bytes := match exr_new text with Some (_, found) => found s | None => [] end.
(** The left alternative first, even if it is shorter; greedy and lazy; empty matches, not at the end of the match before. *)
Example C59_find_example :
  exr_find (mine_text [B " ?[a-z]+"; B "[0-9]{1,3}"]) (B "ab cd1234") = [B "ab"; B " cd"; B "123"; B "4"] /\
  exr_find (B "(a|ab)(c|bcd)?") (B "abcd") = [B "abcd"] /\ exr_find (B "a|ab") (B "abab") = [B "a"; B "a"] /\
  exr_find (B "a+?") (B "aaa") = [B "a"; B "a"; B "a"] /\ exr_find (B "a{2,}") (B "aaaaa") = [B "aaaaa"] /\
  exr_find (B "a*") (B "baac") = [B ""; B "aa"; B ""] /\ exr_find (B "|a") (B "ab") = [B ""; B ""; B ""] /\
  exr_find (B "(a|)*b") (B "aab") = [B "aab"] /\ exr_find (B "(|a)+") (B "aa") = [B ""; B ""; B ""].
Proof. vm_compute. repeat split. Qed.
Definition exr_fs (path : bytes) : option bytes := if bytes_eqb path (B "data") then Some (B "ab ab" ++ [x00] ++ B "12 b") else None.
Definition exr_text : bytes := Eval vm_compute in write exf_fmt true 0 (JArr [jstr (B "ab")]).
Definition exr_re : re := match parse_regex (fun _ => []) (fun _ => false) (fun _ => false) (fun _ => None) (fun _ => false) (fun _ => false) (chars (mine_text [B "[A-Za-z]+"; B "[0-9]"])) with Some (r, _) => r | None => Empty end.
Example C59_example :
  mine_cmd exr_fs (fun _ => true) (fun _ => None) (fun _ s => s) exf_fmt exr_new 1 insertion_sort 1 (B "out") [B "d:data"] [B "word"; B "[0-9]"] (Ok (B "out", exr_text)) /\
  Forall (fun n => Utf8 (text_of n) /\ Comments_end (chars (text_of n))) [B "word"; B "[0-9]"].
Proof.
  split.
  - destruct (load_sources exr_fs (fun _ => None) (fun _ s => s) [B "d:data"] []) as [sources| | |] eqn:Es; try (vm_compute in Es; discriminate Es).
    assert (load_patterns exr_new [B "word"; B "[0-9]"] = Ok [B "[A-Za-z]+"; B "[0-9]"]) as El by (vm_compute; reflexivity).
    assert (exr_new (mine_text [B "[A-Za-z]+"; B "[0-9]"]) = Some (regex_is_match exr_re, find_iter exr_re)) as En.
    { unfold exr_new, regex_new, exr_re. destruct (parse_regex _ _ _ _ _ _ _) as [[r n]|] eqn:E; [reflexivity|]. vm_compute in E. discriminate E. }
    apply then_ok with (a := (sources, (regex_is_match exr_re, find_iter exr_re))). { rewrite Es, El. cbn [bind]. rewrite En. reflexivity. }
    vm_compute in Es. injection Es as <-.
    apply then_ok with (a := [(B "ab", 2)]); [|vm_compute; reflexivity].
    exists [B "ab ab"; B "12 b"], [(B "ab", 2)]. split; [apply Permutation_refl|]. split; [|reflexivity]. cbn [snd].
    set (us := map (chunk_idioms (find_iter exr_re)) (chunks (par_chunk_size 1 2 5) [B "ab ab"; B "12 b"])).
    exists us, (List.concat us), (add_counts bytes_eqb [] (List.concat us)).
    split; [|split; [|split; [apply Permutation_refl|vm_compute; reflexivity]]].
    + unfold us. change (length [B "ab ab"; B "12 b"]) with 2. induction (chunks (par_chunk_size 1 2 5) [B "ab ab"; B "12 b"]); constructor; auto.
    + apply Interleaving_concat.
  - apply Forall_cons; [|apply Forall_cons; [|apply Forall_nil]]; (split; [apply utf8_ok_spec|apply no_hash_ends]); vm_compute; reflexivity.
Qed.
