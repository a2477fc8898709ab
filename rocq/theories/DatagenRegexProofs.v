(** Repeated texts of a fixed length: what [findall] finds. *)
From Verif Require Import Base BaseProofs SpecRegex Regex RegexProofs SpecFind Find FindProofs PropFind SpecDatagenRegex DatagenRegex.
Set Implicit Arguments.
Local Ltac splits := repeat match goal with |- _ /\ _ => split end.

Section Chain.
  Variables (w : list N) (a : re) (L : nat) (unit : nat -> bool).
  Hypothesis HL : 1 <= L.
  Hypothesis Hunit : forall i, unit i = true -> i + L <= length w.
  Hypothesis Ha : forall i, tries w a i = if unit i then [i + L] else [].
  Definition chain (k i : nat) : Prop := forall q, q < k -> unit (i + q * L) = true.

  Lemma chain_S k i : chain (S k) i <-> unit i = true /\ chain k (i + L).
  Proof.
    unfold chain. split.
    - intros H. split. { specialize (H 0 ltac:(lia)). now rewrite Nat.add_0_r in H. } intros q Hq. specialize (H (S q) ltac:(lia)). now replace (i + L + q * L) with (i + S q * L) by lia.
    - intros [H1 H2] [|q] Hq. now rewrite Nat.add_0_r. replace (i + S q * L) with (i + L + q * L) by lia. apply H2. lia.
  Qed.
  Lemma chain_dec k : forall i, chain k i \/ ~ chain k i.
  Proof. induction k as [|k IH]; intros i; [left; intros q Hq; lia|]. rewrite chain_S. destruct (unit i); [|right; intros [? _]; discriminate]. destruct (IH (i + L)); tauto. Qed.
  Lemma chain_le k i : i <= length w -> chain k i -> i + k * L <= length w.
  Proof. intros Hi H. destruct k as [|k]; [lia|]. specialize (H k ltac:(lia)). apply Hunit in H. lia. Qed.
  Lemma times_chain k : forall i, (chain k i -> times (tries w a) k i = [i + k * L]) /\ (~ chain k i -> times (tries w a) k i = []).
  Proof.
    induction k as [|k IH]; intros i.
    - cbn. split. now rewrite Nat.add_0_r. intros H. exfalso. apply H. intros q Hq. lia.
    - cbn [times]. rewrite Ha. rewrite chain_S. destruct (unit i).
      + cbn [flat_map]. rewrite app_nil_r. replace (i + S k * L) with (i + L + k * L) by lia. destruct (IH (i + L)) as [I1 I2]. split; [tauto|]. intros H. apply I2. intros Hc. apply H. auto.
      + cbn. split; [intros [H _]; discriminate|auto].
  Qed.
  Lemma plus_chain : forall fuel i, length w - i < fuel ->
    (unit i = false /\ plus (tries w a) true fuel i = []) \/ exists k, 1 <= k /\ chain k i /\ unit (i + k * L) = false /\ hd_error (plus (tries w a) true fuel i) = Some (i + k * L).
  Proof.
    induction fuel as [|fuel IH]; intros i Hf; [lia|]. cbn [plus]. rewrite Ha. destruct (unit i) eqn:E; [|left; auto]. right. cbn [flat_map]. rewrite app_nil_r.
    pose proof (Hunit E). rewrite (proj2 (Nat.eqb_neq (i + L) i)) by lia. unfold more_or. destruct (IH (i + L)) as [[H1 H2]|(k & H1 & H2 & H3 & H4)]; [lia| |].
    - rewrite H2. exists 1. splits; auto. { intros q Hq. replace q with 0 by lia. now rewrite Nat.add_0_r. } now rewrite Nat.mul_1_l. cbn. now rewrite Nat.add_0_r.
    - exists (S k). replace (i + S k * L) with (i + L + k * L) by lia. splits; auto; try lia. apply chain_S; auto.
      destruct (plus (tries w a) true fuel (i + L)); [discriminate|exact H4].
  Qed.
  Lemma choice_chain m i j : Choice w (Rep (S m) None true a) i j -> exists k, S m <= k /\ j = i + k * L /\ chain k i /\ unit j = false.
  Proof.
    rewrite choice_spec. cbn [tries]. intros [Hi H]. destruct (times_chain m i) as [T1 T2].
    pose proof (chain_dec m i) as Hd.
    destruct Hd as [Hd|Hd]; [|rewrite (T2 Hd) in H; discriminate]. rewrite (T1 Hd) in H. cbn [flat_map] in H. rewrite app_nil_r in H.
    destruct (@plus_chain (S (length w)) (i + m * L)) as [[_ E]|(k & H1 & H2 & H3 & H4)]; [lia|rewrite E in H; discriminate|]. rewrite H4 in H. injection H as <-.
    exists (m + k). splits; try lia; auto. intros q Hq. destruct (Nat.lt_ge_cases q m). now apply Hd.
    replace (i + q * L) with (i + m * L + (q - m) * L) by nia. apply H2. lia.
  Qed.
  Lemma chain_match m i : i <= length w -> chain (S m) i -> exists j, Match w (Rep (S m) None true a) i j.
  Proof.
    intros Hi H. exists (i + S m * L). apply M_rep with (n := S m); [|auto|exact I]. revert H. generalize (S m). intros k. revert i Hi. induction k as [|k IH]; intros i Hi H.
    - replace (i + 0 * L) with i by lia. now constructor.
    - apply chain_S in H as [H1 H2]. pose proof (Hunit H1). econstructor; [apply tries_spec; auto; rewrite Ha, H1; left; reflexivity|].
      replace (i + S k * L) with (i + L + k * L) by lia. apply IH; auto.
  Qed.

  Variable U : list N -> Prop.
  Hypothesis HU : forall i, unit i = true -> U (firstn L (skipn i w)).
  Hypothesis HB : forall i, unit i = false -> ~ Begins U (skipn i w).
  (** Two of them do not overlap. *)
  Hypothesis Hover : forall i d, unit i = true -> 0 < d < L -> unit (i + d) = false.
  Lemma chain_units k : forall i, chain k i -> exists us, length us = k /\ Forall U us /\ skipn i w = List.concat us ++ skipn (i + k * L) w /\ length (List.concat us) = k * L.
  Proof.
    induction k as [|k IH]; intros i H.
    - exists []. replace (i + 0 * L) with i by lia. splits; auto.
    - apply chain_S in H as [H1 H2]. destruct (IH _ H2) as (us & E1 & E2 & E3 & E4). exists (firstn L (skipn i w) :: us). pose proof (Hunit H1).
      assert (length (firstn L (skipn i w)) = L) as El by (rewrite firstn_length, skipn_length; lia). splits.
      + cbn. lia.
      + constructor; auto.
      + cbn [List.concat]. rewrite <- app_assoc. replace (i + S k * L) with (i + L + k * L) by lia. rewrite <- E3. replace (i + L) with (L + i) by lia. rewrite <- skip_skip. now rewrite firstn_skipn.
      + cbn [List.concat]. rewrite app_length, El, E4. lia.
  Qed.
  (** The longest chain. *)
  Lemma longest : forall n i, length w - i < n -> unit i = true -> exists k, 1 <= k /\ chain k i /\ unit (i + k * L) = false.
  Proof.
    induction n as [|n IH]; intros i Hn E; [lia|]. pose proof (Hunit E). destruct (unit (i + L)) eqn:E2.
    - destruct (IH (i + L)) as (k & H1 & H2 & H3); auto; [lia|]. exists (S k). replace (i + S k * L) with (i + L + k * L) by lia. splits; auto; try lia. now apply chain_S.
    - exists 1. rewrite Nat.mul_1_l. splits; auto. intros q Hq. replace q with 0 by lia. now rewrite Nat.add_0_r.
  Qed.
  Lemma chains_gap m l i : i <= length w -> (i = length w \/ chain (S m) i) -> Chains U (S m) (skipn i w) l -> forall n start, i - start < n -> start <= i ->
    (forall p, start <= p < i -> ~ chain (S m) p) -> Chains U (S m) (skipn start w) l.
  Proof.
    intros Hi Hend HC. induction n as [|n IH]; intros start Hn Hs Hno; [lia|]. destruct (Nat.eq_dec start i) as [->|Hne]; [exact HC|].
    destruct (unit start) eqn:E.
    - destruct (@longest (S (length w)) start) as (k & H1 & H2 & H3); [lia|exact E|]. assert (k < S m) as Hk.
      { apply Nat.nle_gt. intros Hle. apply (Hno start); [lia|]. intros q Hq. apply H2. lia. }
      assert (Hnext : start + k * L <= i).
      { destruct Hend as [->|Hend]; [apply chain_le; auto; lia|]. apply Nat.nlt_ge. intros Hlt.
        pose proof (Nat.div_mod (i - start) L ltac:(lia)) as Ed. pose proof (Nat.mod_upper_bound (i - start) L ltac:(lia)). set (q := (i - start) / L) in *. set (d := (i - start) mod L) in *.
        assert (q < k) by nia. assert (unit i = true) as Ei by (apply chain_S in Hend; tauto). destruct (Nat.eq_dec d 0) as [E0|E0].
        - specialize (Hend (k - q) ltac:(lia)). replace (i + (k - q) * L) with (start + k * L) in Hend by nia. congruence.
        - pose proof (H2 q ltac:(lia)) as Hq. pose proof (@Hover _ d Hq ltac:(lia)) as Hf. replace (start + q * L + d) with i in Hf by nia. congruence. }
      destruct (chain_units H2) as (us & E1 & E2 & E3 & E4). rewrite E3. apply Ch_few; auto; try lia. { intros ->. cbn in E1. lia. } apply IH; try lia. intros p Hp. apply Hno. lia.
    - destruct (nth_error w start) as [c|] eqn:Ec. 2: { apply nth_error_None in Ec. lia. }
      pose proof (HB E) as Hb. rewrite (@skipn_nth _ w start _ Ec) in *. apply Ch_other; auto. apply IH; try lia. intros p Hp. apply Hno. lia.
  Qed.
  Lemma find_chains m : forall b start l, Finds w (Rep (S m) None true a) b start l -> start <= length w -> Chains U (S m) (skipn start w) (map (slice w) l).
  Proof.
    induction 1 as [b start H|b start i j l H1 H2 H3 H4 H IH|start l H1 H IH]; intros Hs.
    - apply chains_gap with (i := length w) (n := S (length w)); auto; try lia. { rewrite skipn_all2 by lia. constructor. }
      intros p Hp Hc. apply chain_match in Hc as [j Hj]; [|lia]. apply (H p j); auto; lia.
    - pose proof H3 as Hc. apply choice_chain in H3 as (k & G1 & -> & G2 & G3). destruct Hc as [Hi _]. pose proof (chain_le Hi G2).
      apply chains_gap with (i := i) (n := S (length w)); auto; try lia.
      + right. intros q Hq. apply G2. lia.
      + destruct (chain_units G2) as (us & E1 & E2 & E3 & E4). cbn [map]. replace (slice w (i, i + k * L)) with (List.concat us).
        2: { unfold slice. cbn [fst snd]. replace (i + k * L - i) with (k * L) by lia. rewrite E3, <- E4, firstn_app, Nat.sub_diag, firstn_all, firstn_O, app_nil_r. reflexivity. }
        rewrite E3. apply Ch_many; auto; try lia. intros ->. cbn in E1. lia.
      + intros p Hp Hcp. apply chain_match in Hcp as [j Hj]; [|lia]. apply (H2 p j); auto.
    - apply choice_chain in H1 as (k & G1 & E & _). nia.
  Qed.
End Chain.

(** ** The stretches do not overlap *)
Lemma finds_total w r : forall b start l, Finds w r b start l -> start <= length w -> length (List.concat (map (slice w) l)) <= length w - start.
Proof.
  induction 1 as [b start H|b start i j l H1 H2 H3 H4 H IH|start l H1 H IH]; intros Hs.
  - cbn. lia.
  - pose proof (Match_le (choice_match H3)). cbn [map List.concat]. rewrite app_length. unfold slice at 1. cbn [fst snd]. rewrite firstn_length, skipn_length. specialize (IH ltac:(lia)). lia.
  - destruct (Nat.eq_dec start (length w)) as [->|].
    + assert (Hlen : forall b s l, Finds w r b s l -> length w < s -> l = []).
      { clear. induction 1 as [b start H|b start i j l H1 H2 H3 H4 H IH|start l H1 H IH]; intros Hs; auto. destruct H3. lia. }
      rewrite (Hlen _ _ _ H) by lia. cbn. lia.
    + specialize (IH ltac:(lia)). lia.
Qed.
Lemma findall_total r text : length (List.concat (findall r text)) <= length text.
Proof. pose proof (@finds_total text r false 0 _ (find_all_finds text r) ltac:(lia)). unfold findall. lia. Qed.
Lemma findall_match r text m : In m (findall r text) -> exists i j, Match text r i j /\ m = slice text (i, j).
Proof.
  unfold findall. rewrite in_map_iff. intros ([i j] & <- & H). exists i, j. split; auto. pose proof (find_all_finds text r) as HF.
  induction HF as [|b start i' j' l H1 H2 H3 H4 HF IH|start l H1 HF IH]; [destruct H| |auto]. destruct H as [E|H]; [injection E as <- <-; now apply choice_match|auto].
Qed.
