(** C79: what the second expression of datagen.py finds, exactly. *)
From Coq Require Import Sorting.Sorted.
From Verif Require Import Base BaseProofs SpecRegex Regex RegexProofs SpecFind Find FindProofs PropFind Datagen SpecDatagenRegex DatagenRegex DatagenRegexProofs PropDatagenRegex.
Set Implicit Arguments.
Local Open Scope list_scope.
Local Notation length := List.length.
Local Ltac splits := repeat match goal with |- _ /\ _ => split end.

(** ** Slices *)
Lemma before_rev (p : N -> bool) w i : i <= length w -> Regex.before p w i = match rev (firstn i w) with c :: _ => p c | [] => false end.
Proof.
  intros Hi. unfold Regex.before. destruct i as [|i]; [reflexivity|]. destruct (nth_error w i) as [c|] eqn:E. 2: { apply nth_error_None in E. lia. }
  replace (firstn (S i) w) with (firstn i w ++ [c]). now rewrite rev_unit.
  clear Hi. revert i E. induction w as [|x w IH]; intros [|i] E; try discriminate E. now injection E as ->. cbn [firstn app]. f_equal. now apply IH.
Qed.
Lemma after_skipn (p : N -> bool) w i : Regex.after p w i = match skipn i w with c :: _ => p c | [] => false end.
Proof. unfold Regex.after. rewrite nth_skipn_hd. now destruct (skipn i w). Qed.
Lemma boundary_edge word w i : i <= length w -> at_boundary word w i = true <-> Edge word (firstn i w) (skipn i w).
Proof.
  intros Hi. unfold at_boundary, word_boundary, Edge. rewrite before_rev, after_skipn by exact Hi.
  destruct (match rev (firstn i w) with c :: _ => word c | [] => false end), (match skipn i w with c :: _ => word c | [] => false end); cbn; split; congruence.
Qed.
Lemma slice_skip w i j : i <= j <= length w -> skipn i w = slice w (i, j) ++ skipn j w.
Proof. intros H. unfold slice. cbn [fst snd]. rewrite <- (firstn_skipn (j - i) (skipn i w)) at 1. rewrite skip_skip. do 2 f_equal. lia. Qed.
Lemma slice_first w i j : i <= j <= length w -> firstn j w = firstn i w ++ slice w (i, j).
Proof. intros H. unfold slice. cbn [fst snd]. rewrite <- (firstn_skipn i (firstn j w)). rewrite firstn_firstn, Nat.min_l by lia. now rewrite skipn_firstn_comm. Qed.
Lemma slice_mid (a m b : list N) : slice (a ++ m ++ b) (length a, length a + length m) = m.
Proof. unfold slice. cbn [fst snd]. rewrite skipn_app, skipn_all, Nat.sub_diag. cbn [app skipn]. replace (length a + length m - length a) with (length m) by lia. rewrite firstn_app, Nat.sub_diag, firstn_all, firstn_O. apply app_nil_r. Qed.
Lemma slice_len w i j : i <= j <= length w -> length (slice w (i, j)) = j - i.
Proof. intros H. unfold slice. cbn [fst snd]. rewrite firstn_length, skipn_length. lia. Qed.

Lemma nth_mid (a r : list N) c : nth_error (a ++ c :: r) (length a) = Some c.
Proof. rewrite nth_error_app2, Nat.sub_diag by lia. reflexivity. Qed.
Lemma char_at a c r : Match (a ++ c :: r) (char c) (length a) (S (length a)).
Proof. econstructor; [apply nth_mid|]. apply N.eqb_refl. Qed.
Lemma class_at p s : Forall (fun c => p c = true) s -> forall a r, Iter (a ++ s ++ r) (One p) (length s) (length a) (length a + length s).
Proof.
  induction 1 as [|c s Hc HF IH]; intros a r; cbn [List.length app].
  - rewrite Nat.add_0_r. constructor. rewrite app_length. lia.
  - econstructor. { econstructor; [apply nth_mid|exact Hc]. } specialize (IH (a ++ [c]) r). rewrite <- app_assoc, app_length in IH. cbn [app List.length] in IH.
    replace (S (length a)) with (length a + 1) by lia. replace (length a + S (length s)) with (length a + 1 + length s) by lia. exact IH.
Qed.

Section Bytes.
  Variables (word space : N -> bool).
  Notation entry := (entry word space).

  (** ** The matches *)
  Lemma iter_entries w n : forall i j, Iter w entry n i j -> Entries word space (firstn i w) n (slice w (i, j)) (skipn j w).
  Proof.
    induction n as [|n IH]; intros i j H; inversion H as [|? ? ? k ? HM HI]; subst. { rewrite slice_nil. constructor. }
    pose proof (IH _ _ HI) as HE. pose proof (Match_le HM) as B0. pose proof (Iter_le HI) as B00.
    inversion HM as [| | |? ? ? x1 ? H1 H2| | |]; subst. inversion H1 as [| |? ? G1 G2| | | |]; subst. inversion H2 as [| | |? ? ? x2 ? H3 H4| | |]; subst. inversion H4 as [| | |? ? ? x3 ? H5 H6| | |]; subst.
    pose proof (Match_le H3). pose proof (Match_le H5). pose proof (Match_le H6).
    assert (exists a b, slice w (x2, x3) = [a; b] /\ Hex a /\ Hex b) as (a & b & E2 & Ha & Hb).
    { apply match_class in H5 as (L1 & L2 & HF). unfold SpecRegex.at_most in L2.
      destruct (slice w (x2, x3)) as [|a [|b [|c s]]]; cbn in L1, L2; try lia. inversion HF as [|? ? Ha HF']; subst. inversion HF' as [|? ? Hb HF'']; subst. exists a, b. now rewrite <- !hex_iff. }
    assert (E1 : slice w (x1, j) = slice w (x1, x2) ++ a :: b :: slice w (x3, k) ++ slice w (k, j)).
    { rewrite (@slice_app w x1 k j), (@slice_app w x1 x2 k), (@slice_app w x2 x3 k), E2 by lia. rewrite <- !app_assoc. reflexivity. }
    rewrite E1. apply Entries_more; auto.
    - apply boundary_edge in G2; [|lia]. rewrite (@slice_skip w x1 j), E1 in G2 by lia. repeat (rewrite <- app_assoc in G2; cbn [app] in G2). exact G2.
    - inversion H3 as [| | | | | |? ? ? ? n' ? ? HI' Hn Hm]; subst. cbn in Hm. destruct n' as [|[|n']]; [| |lia].
      + inversion HI'; subst. rewrite slice_nil. left; auto.
      + inversion HI' as [|? ? ? y ? HM' HI'']; subst. inversion HI''; subst. inversion HM' as [| | | |? ? ? ? HA|? ? ? ? HA|]; subst; inversion HA as [| | |? ? ? z ? HA1 HA2| | |]; subst;
          apply match_char in HA1 as [-> N1]; apply match_char in HA2 as [-> N2]; rewrite (@slice_cons w _ _ _ N1), (@slice_cons w _ _ _ N2), slice_nil by lia; cbn; auto.
    - inversion H6 as [| | | |? ? ? ? HA|? ? ? ? HA|]; subst.
      + apply match_char in HA as [-> N1]. left. rewrite (@slice_cons w _ _ _ N1), slice_nil by lia. auto.
      + inversion HA as [| | |? ? ? z ? HA1 HA2| | |]; subst. inversion HA1 as [| |? ? G3 G4| | | |]; subst. right. apply match_class in HA2 as (_ & _ & HF). split; auto.
        apply boundary_edge in G4; [|lia]. rewrite (@slice_first w x1 z), (@slice_app w x1 x2 z), E2 in G4 by lia. rewrite (@slice_skip w z j), (@slice_app w z k j) in G4 by lia. rewrite <- !app_assoc in G4. exact G4.
    - rewrite (@slice_first w x1 k), (@slice_app w x1 x2 k), (@slice_app w x2 x3 k), E2 in HE by lia. exact HE.
  Qed.
  Lemma entries_iter a n m b : Entries word space a n m b -> Iter (a ++ m ++ b) entry n (length a) (length a + length m).
  Proof.
    induction 1 as [a b|a pre x y post n m b H1 H2 Hx Hy H3 H IH].
    - rewrite Nat.add_0_r. constructor. rewrite app_length. lia.
    - set (w := a ++ (pre ++ x :: y :: post ++ m) ++ b). assert (Ew : (a ++ pre ++ x :: y :: post) ++ m ++ b = w).
      { unfold w. repeat (rewrite <- app_assoc; cbn [app]). reflexivity. }
      rewrite Ew in IH. replace (length (a ++ pre ++ x :: y :: post)) with (length a + length pre + 2 + length post) in IH by (rewrite !app_length; cbn [List.length]; lia).
      replace (length a + length (pre ++ x :: y :: post ++ m)) with (length a + length pre + 2 + length post + length m) by (rewrite !app_length; cbn [List.length]; rewrite app_length; lia).
      assert (Hlen : length w = length a + length pre + 2 + length post + length m + length b) by (rewrite <- Ew, !app_length; cbn [List.length]; lia).
      econstructor; [|exact IH]. unfold PropDatagenRegex.entry. apply M_cat with (j := length a).
      { apply M_look; [lia|]. apply boundary_edge; [lia|]. unfold w. rewrite firstn_app, firstn_all, Nat.sub_diag, firstn_O, app_nil_r. rewrite skipn_app, skipn_all, Nat.sub_diag. cbn [app skipn].
        repeat (rewrite <- app_assoc; cbn [app]). exact H1. }
      apply M_cat with (j := length a + length pre).
      { assert (Epre : forall c, pre = [c; 0x78%N] -> Match w (Cat (char c) (char 0x78)) (length a) (length a + length pre)).
        { intros c ->. unfold w. cbn [app List.length]. replace (length a + 2) with (S (S (length a))) by lia. econstructor; [apply char_at|].
          pose proof (@char_at (a ++ [c]) 0x78%N (x :: y :: (post ++ m) ++ b)) as HC. rewrite <- app_assoc, app_length in HC. cbn [app List.length] in HC. replace (length a + 1) with (S (length a)) in HC by lia. exact HC. }
        cbn in H2. destruct H2 as [E|[E|[E|[]]]].
        - subst pre. cbn [List.length]. rewrite Nat.add_0_r. apply M_rep with (n := 0); cbn; auto. constructor. lia.
        - apply M_rep with (n := 1); cbn; auto. econstructor; [apply M_left; apply Epre; now symmetry|]. constructor. lia.
        - apply M_rep with (n := 1); cbn; auto. econstructor; [apply M_right; apply Epre; now symmetry|]. constructor. lia. }
      apply M_cat with (j := length a + length pre + 2).
      { apply M_rep with (n := 2); cbn; auto. apply hex_iff in Hx, Hy. pose proof (@class_at hex [x; y] ltac:(auto) (a ++ pre) ((post ++ m) ++ b)) as HC. rewrite app_length in HC.
        assert ((a ++ pre) ++ [x; y] ++ (post ++ m) ++ b = w) as E by (unfold w; repeat (rewrite <- app_assoc; cbn [app]); reflexivity). rewrite E in HC. exact HC. }
      assert (Ew2 : (a ++ pre ++ [x; y]) ++ post ++ m ++ b = w) by (unfold w; repeat (rewrite <- app_assoc; cbn [app]); reflexivity).
      assert (El2 : length (a ++ pre ++ [x; y]) = length a + length pre + 2) by (rewrite !app_length; cbn [List.length]; lia).
      destruct H3 as [->|[HF He]].
      + apply M_left. pose proof (@char_at (a ++ pre ++ [x; y]) 0x2C%N (m ++ b)) as HC. cbn [app] in Ew2. rewrite Ew2, El2 in HC. cbn [List.length]. replace (length a + length pre + 2 + 1) with (S (length a + length pre + 2)) by lia. exact HC.
      + apply M_right. apply M_cat with (j := length a + length pre + 2).
        * apply M_look; [lia|]. apply boundary_edge; [lia|]. rewrite <- Ew2, <- El2. rewrite firstn_app, firstn_all, Nat.sub_diag, firstn_O, app_nil_r. rewrite skipn_app, skipn_all, Nat.sub_diag. exact He.
        * apply M_rep with (n := length post); cbn; auto; try lia. pose proof (@class_at _ _ HF (a ++ pre ++ [x; y]) (m ++ b)) as HC. rewrite Ew2, El2 in HC. exact HC.
  Qed.
  Definition Bytes (a m b : list N) : Prop := exists n, 8 <= n /\ Entries word space a n m b.
  Lemma match_bytes w i j : Match w (bytes_regex word space) i j <-> i <= j <= length w /\ Bytes (firstn i w) (slice w (i, j)) (skipn j w).
  Proof.
    split.
    - intros H. split; [exact (Match_le H)|]. inversion H as [| | | | | |? ? ? ? n ? ? HI Hn _]; subst. exists n. split; auto. now apply iter_entries.
    - intros (Hb & n & Hn & HE). apply entries_iter in HE. rewrite <- (@slice_skip w i j), firstn_skipn, firstn_length, slice_len, Nat.min_l in HE by lia. replace (i + (j - i)) with j in HE by lia.
      apply M_rep with (n := n); cbn; auto.
  Qed.

  (** ** The first way is the longest *)
  (** The ways of a step, the longest first; after another one than the longest no step is possible. *)
  Section Steps.
    Variables (step : nat -> list nat).
    Definition tidy (i : nat) (l : list nat) : Prop := forall h t, l = h :: t -> i < h /\ Forall (fun j => j < h /\ step j = []) t.
    Hypothesis Hstep : forall i, tidy i (step i).
    Lemma flat_nil (f : nat -> list nat) t : Forall (fun j => f j = []) t -> flat_map f t = [].
    Proof. induction 1 as [|j t Hj H IH]; auto. cbn. now rewrite Hj. Qed.
    Lemma times_tidy k : forall i h t, times step k i = h :: t -> i <= h /\ Forall (fun j => j < h /\ step j = []) t.
    Proof.
      induction k as [|k IH]; intros i h t E; cbn [times] in E. { injection E as <- <-. auto. }
      destruct (step i) as [|h0 t0] eqn:Es; [discriminate E|]. destruct (Hstep Es) as [H1 H2]. cbn [flat_map] in E. destruct k as [|k].
      - cbn [times app] in E. injection E as <- <-. split; [lia|]. replace (flat_map (fun i => [i]) t0) with t0; auto. clear. induction t0; cbn; congruence.
      - rewrite (flat_nil (times step (S k))), app_nil_r in E.
        + apply IH in E as [E1 E2]. split; auto. lia.
        + eapply Forall_impl; [|exact H2]. intros j [_ Hj]. cbn [times]. now rewrite Hj.
    Qed.
    Lemma plus_longest fuel : forall i h t, plus step true fuel i = h :: t -> i < h /\ Forall (fun j => j <= h) t.
    Proof.
      induction fuel as [|fuel IH]; intros i h t E; cbn [plus] in E; [discriminate|]. destruct (step i) as [|h0 t0] eqn:Es; [discriminate E|]. destruct (Hstep Es) as [H1 H2]. cbn [flat_map] in E.
      rewrite (proj2 (Nat.eqb_neq h0 i)) in E by lia. unfold more_or at 1 in E.
      set (others := flat_map (fun j => more_or true (if j =? i then [] else plus step true fuel j) j) t0) in E.
      assert (Ho : Forall (fun j => j < h0) others).
      { unfold others. clear E Es. induction H2 as [|j t0 [Hj1 Hj2] H2 IH2]; [constructor|]. cbn [flat_map]. apply Forall_app. split; auto.
        assert (plus step true fuel j = []) as E by (destruct fuel; cbn [plus]; [reflexivity|now rewrite Hj2]). unfold more_or. destruct (j =? i); rewrite ?E; repeat constructor; auto. }
      destruct (plus step true fuel h0) as [|h1 t1] eqn:Ep.
      - cbn [app] in E. injection E as <- <-. split; auto. eapply Forall_impl; [|exact Ho]. cbn. intros; lia.
      - apply IH in Ep as [Hp1 Hp2]. cbn [app] in E. injection E as <- <-. split; [lia|]. apply Forall_app. split; [apply Forall_app; split; auto; constructor; auto; lia|]. eapply Forall_impl; [|exact Ho]. cbn. intros; lia.
    Qed.
    Lemma rep_longest k fuel i h t : flat_map (plus step true fuel) (times step k i) = h :: t -> Forall (fun j => j <= h) t.
    Proof.
      intros E. destruct (times step k i) as [|h0 t0] eqn:Et; [discriminate E|]. apply times_tidy in Et as [_ H2]. cbn [flat_map] in E. rewrite (flat_nil (plus step true fuel)), app_nil_r in E.
      - now apply plus_longest in E.
      - eapply Forall_impl; [|exact H2]. intros j [_ Hj]. destruct fuel; cbn [plus]; [reflexivity|now rewrite Hj].
    Qed.
  End Steps.

  (** White space is neither a comma nor a part of a byte. *)
  Hypothesis Hcomma : space 0x2C%N = false.
  Hypothesis Hspace : forall c, Hex c \/ c = 0x5C%N -> space c = false.
  Lemma entry_start w j : j <= length w -> tries w entry j <> [] -> exists c, nth_error w j = Some c /\ (Hex c \/ c = 0x5C%N).
  Proof.
    intros Hj H. destruct (tries w entry j) as [|k t] eqn:E; [congruence|]. assert (In k (tries w entry j)) as Hin by (rewrite E; left; auto). apply tries_spec in Hin; auto. pose proof (Match_le Hin) as Hb.
    apply match_entry in Hin. apply (entry_first word) in Hin as (c & r & Es & Hc). exists c. split; auto. rewrite nth_skipn_hd, (@slice_skip w j k), Es by lia. reflexivity.
  Qed.
  Lemma plus_class p w fuel : forall i h t, plus (tries w (One p)) true fuel i = h :: t ->
    i < h <= length w /\ (exists c, nth_error w i = Some c /\ p c = true) /\ Forall (fun j => j < h /\ exists c, nth_error w j = Some c /\ p c = true) t.
  Proof.
    induction fuel as [|fuel IH]; intros i h t E; cbn [plus] in E; [discriminate|].
    change (tries w (One p) i) with (match nth_error w i with Some c => if p c then [S i] else [] | None => [] end) in E. destruct (nth_error w i) as [c|] eqn:Ec; [|discriminate]. destruct (p c) eqn:Ep; [|discriminate].
    assert (i < length w) by (apply nth_error_Some; congruence).
    cbn [flat_map] in E. rewrite (proj2 (Nat.eqb_neq (S i) i)), app_nil_r in E by lia. unfold more_or in E. destruct (plus (tries w (One p)) true fuel (S i)) as [|h1 t1] eqn:E1.
    - cbn [app] in E. injection E as <- <-. splits; eauto; lia.
    - apply IH in E1 as (H1 & H2 & H3). cbn [app] in E. injection E as <- <-. splits; eauto; try lia. apply Forall_app. split; auto. constructor; auto. split; auto. lia.
  Qed.
  Lemma post_tries w p : tries w (Alt (char 0x2C) (Cat (Look (at_boundary word)) (Rep 0 None true (One space)))) p =
    match nth_error w p with Some c => if (44 =? c)%N then [S p] else [] | None => [] end ++
    (if at_boundary word w p then plus (tries w (One space)) true (S (length w)) p ++ [p] else []).
  Proof. unfold char. cbn [tries]. f_equal. destruct (at_boundary word w p); [|reflexivity]. cbn [flat_map]. rewrite app_nil_r. reflexivity. Qed.
  Lemma post_tidy w p h t : p <= length w -> tries w (Alt (char 0x2C) (Cat (Look (at_boundary word)) (Rep 0 None true (One space)))) p = h :: t ->
    p <= h /\ Forall (fun j => j < h /\ tries w entry j = []) t.
  Proof.
    intros Hp. rewrite post_tries. destruct (nth_error w p) as [c|] eqn:Ec.
    - assert (p < length w) by (apply nth_error_Some; congruence). destruct (44 =? c)%N eqn:E44.
      + apply N.eqb_eq in E44. subst c.
        destruct (plus (tries w (One space)) true (S (length w)) p) as [|h0 t0] eqn:E0. 2: { apply plus_class in E0 as (_ & (c & H1 & H2) & _). congruence. }
        cbn [app]. intros E. injection E as <- <-. split; [lia|]. destruct (at_boundary word w p); constructor; [|constructor]. split; [lia|]. destruct (tries w entry p) eqn:E; auto. exfalso. destruct (@entry_start w p Hp) as (c & Hc1 & Hc2); [congruence|]. assert (c = 44%N) by congruence. subst. unfold Hex, Digit in Hc2. lia.
      + cbn [app]. destruct (at_boundary word w p); [|discriminate]. destruct (plus (tries w (One space)) true (S (length w)) p) as [|h0 t0] eqn:E0.
        * cbn [app]. intros E. injection E as <- <-. auto.
        * cbn [app]. intros E. injection E as <- <-. apply plus_class in E0 as (H1 & H2 & H3). split; [lia|].
          assert (Hno : forall j, j < h0 -> (exists c, nth_error w j = Some c /\ space c = true) -> j < h0 /\ tries w entry j = []).
          { intros j Hj (d & Hd1 & Hd2). split; auto. destruct (tries w entry j) eqn:E; auto. exfalso. destruct (@entry_start w j) as (d' & He1 & He2); [lia|congruence|]. apply Hspace in He2. congruence. }
          apply Forall_app. split; [|constructor; auto; apply Hno; auto; lia]. eapply Forall_impl; [|exact H3]. intros j [Hj1 Hj2]. now apply Hno.
    - apply nth_error_None in Ec. cbn [app]. destruct (at_boundary word w p); [|discriminate]. destruct (plus (tries w (One space)) true (S (length w)) p) as [|h0 t0] eqn:E0.
      + cbn [app]. intros E. injection E as <- <-. auto.
      + apply plus_class in E0 as (H1 & _). lia.
  Qed.
  Lemma digits_tries w k : tries w (Rep 2 (Some 2) true (One hex)) k =
    match nth_error w k, nth_error w (S k) with Some a, Some b => if hex a && hex b then [S (S k)] else [] | _, _ => [] end.
  Proof.
    cbn [tries Nat.leb Nat.sub times optional]. destruct (nth_error w k) as [a|]; [|reflexivity]. destruct (hex a); cbn [flat_map andb]; [|now destruct (nth_error w (S k))].
    destruct (nth_error w (S k)) as [b|]; [|reflexivity]. destruct (hex b); reflexivity.
  Qed.
  Lemma prefix_tries w i : let l := tries w (Rep 0 (Some 1) true (Alt (Cat (char 0x30) (char 0x78)) (Cat (char 0x5C) (char 0x78)))) i in
    l = [i] \/ l = [S (S i); i] /\ nth_error w (S i) = Some 0x78%N.
  Proof.
    cbv zeta. unfold char. cbn [tries Nat.leb Nat.sub times optional flat_map]. rewrite app_nil_r. unfold more_or.
    destruct (nth_error w i) as [c|]; [|left; reflexivity]. destruct (48 =? c)%N eqn:E1.
    - apply N.eqb_eq in E1. subst c. change (92 =? 48)%N with false. cbn [flat_map]. destruct (nth_error w (S i)) as [d|]; [|left; reflexivity]. destruct (120 =? d)%N eqn:E2; [|left; reflexivity].
      apply N.eqb_eq in E2. subst d. right. split; reflexivity.
    - destruct (92 =? c)%N; [|left; reflexivity]. cbn [flat_map]. destruct (nth_error w (S i)) as [d|]; [|left; reflexivity]. destruct (120 =? d)%N eqn:E2; [|left; reflexivity].
      apply N.eqb_eq in E2. subst d. right. split; reflexivity.
  Qed.
  Lemma entry_tidy w i : tidy (tries w entry) i (tries w entry i).
  Proof.
    intros h t E. unfold PropDatagenRegex.entry in E at 1.
    change (tries w (Cat (Look (at_boundary word)) ?r) i) with (flat_map (tries w r) (if at_boundary word w i then [i] else [])) in E.
    destruct (at_boundary word w i); [|discriminate E]. cbn [flat_map] in E. rewrite app_nil_r in E.
    change (tries w (Cat ?a ?b) i) with (flat_map (tries w b) (tries w a i)) in E.
    set (post := Alt (char 0x2C) (Cat (Look (at_boundary word)) (Rep 0 None true (One space)))) in *.
    assert (HT : forall k, tries w (Cat (Rep 2 (Some 2) true (One hex)) post) k = h :: t -> k < h /\ Forall (fun j => j < h /\ tries w entry j = []) t).
    { intros k Ek. change (tries w (Cat (Rep 2 (Some 2) true (One hex)) post) k) with (flat_map (tries w post) (tries w (Rep 2 (Some 2) true (One hex)) k)) in Ek. rewrite digits_tries in Ek.
      destruct (nth_error w k) as [a|] eqn:Ea; [|discriminate]. destruct (nth_error w (S k)) as [b|] eqn:Eb; [|discriminate]. destruct (hex a && hex b); [|discriminate]. cbn [flat_map] in Ek. rewrite app_nil_r in Ek.
      assert (S k < length w) by (apply nth_error_Some; congruence). apply post_tidy in Ek as [H1 H2]; [|lia]. split; auto. lia. }
    destruct (prefix_tries w i) as [Ep|[Ep En]]; rewrite Ep in E; cbn [flat_map] in E; rewrite app_nil_r in E; [now apply HT|].
    assert (tries w (Cat (Rep 2 (Some 2) true (One hex)) post) i = []) as Ei.
    { change (tries w (Cat (Rep 2 (Some 2) true (One hex)) post) i) with (flat_map (tries w post) (tries w (Rep 2 (Some 2) true (One hex)) i)). rewrite digits_tries, En. destruct (nth_error w i) as [a|]; auto.
      change (hex 120) with false. now rewrite andb_false_r. }
    rewrite Ei, app_nil_r in E. apply HT in E as [H1 H2]. split; auto. lia.
  Qed.
  Lemma choice_longest w i j : Choice w (bytes_regex word space) i j -> forall j', Match w (bytes_regex word space) i j' -> j' <= j.
  Proof.
    intros HC j' HM. pose proof HC as [Hi _]. apply choice_spec in HC as [_ HC]. apply tries_spec in HM; [|exact Hi].
    change (tries w (bytes_regex word space) i) with (flat_map (plus (tries w entry) true (S (length w))) (times (tries w entry) 7 i)) in *.
    destruct (flat_map (plus (tries w entry) true (S (length w))) (times (tries w entry) 7 i)) as [|h t] eqn:E; [discriminate|]. injection HC as ->.
    apply rep_longest in E; [|apply entry_tidy]. destruct HM as [<-|HM]; [auto|]. rewrite Forall_forall in E. now apply E.
  Qed.
  (** The second expression finds, from left to right, the longest lists of at least eight bytes. *)
  Theorem C79_bytes_exact : forall text, Longest (fun a m b => exists n, 8 <= n /\ Entries word space a n m b) [] text (findall (bytes_regex word space) text).
  Proof.
    intros text. unfold findall. pose proof (find_all_finds text (bytes_regex word space)) as HF.
    assert (HG : forall bb start l, Finds text (bytes_regex word space) bb start l -> start <= length text -> Longest Bytes (firstn start text) (skipn start text) (map (slice text) l)).
    { clear HF. induction 1 as [bb start H|bb start i j l H1 H2 H3 H4 H IH|start l H1 H IH]; intros Hs.
      - constructor. intros a m b E HB. assert (Ht : text = firstn start text ++ a ++ m ++ b) by (rewrite <- E; symmetry; apply firstn_skipn).
        assert (Hla : length (firstn start text) = start) by (rewrite firstn_length; lia). assert (Hlt : length text = start + length a + length m + length b) by (rewrite Ht at 1; rewrite !app_length, Hla; lia).
        assert (Et : text = (firstn start text ++ a) ++ m ++ b) by (rewrite <- app_assoc; exact Ht). assert (Hl2 : length (firstn start text ++ a) = start + length a) by (rewrite app_length, Hla; lia).
        apply (H (start + length a) (start + length a + length m)); [lia|]. destruct HB as (n & Hn & HE). apply entries_iter in HE. rewrite <- Et, Hl2 in HE. apply M_rep with (n := n); cbn; auto.
      - pose proof (choice_match H3) as HM. pose proof (Match_le HM) as Hb. pose proof (proj1 (match_bytes _ _ _) HM) as [_ HB].
        assert (Hla : length (firstn start text) = start) by (rewrite firstn_length; lia).
        cbn [map]. rewrite (@slice_skip text start i), (@slice_skip text i j) by lia. apply Longest_found.
        + rewrite <- slice_first by lia. exact HB.
        + intros a' m' b' E HB'. rewrite <- (@slice_skip text i j), <- (@slice_skip text start i) in E by lia. rewrite !slice_len by lia.
          assert (Et : text = (firstn start text ++ a') ++ m' ++ b') by (rewrite <- app_assoc, <- E; symmetry; apply firstn_skipn).
          assert (Hl2 : length (firstn start text ++ a') = start + length a') by (rewrite app_length, Hla; lia).
          assert (Hlt : length text = start + length a' + length m' + length b') by (rewrite Et at 1; rewrite !app_length, Hla; lia).
          assert (HM' : Match text (bytes_regex word space) (start + length a') (start + length a' + length m')).
          { destruct HB' as (n & Hn & HE). apply entries_iter in HE. rewrite <- Et, Hl2 in HE. apply M_rep with (n := n); cbn; auto. }
          destruct (Nat.lt_trichotomy (start + length a') i) as [Hlt'|[Heq|Hgt]]; [exfalso; apply (H2 (start + length a') (start + length a' + length m')); auto; lia| |left; lia].
          right. split; [lia|]. rewrite Heq in HM'. pose proof (choice_longest H3 HM'). lia.
        + rewrite app_assoc. rewrite <- !slice_first by lia. apply IH. lia.
      - exfalso. pose proof (choice_match H1) as HM. apply match_bytes in HM as (_ & n & Hn & HE). rewrite slice_nil in HE. inversion HE as [|? pre x y post n' m b' ? ? ? ? ? ? E1]; subst; [lia|]. destruct pre; discriminate. }
    exact (HG false 0 _ HF ltac:(lia)).
  Qed.
End Bytes.
Print Assumptions C79_bytes_exact.
Example C79_bytes_exact_example : let text := ([0x61; 0x62; 0x3D] ++ List.concat (repeat [0x30; 0x78; 0x31; 0x66; 0x2C] 9) ++ [0x31; 0x66; 0x20; 0x20; 0x78])%N in
  ascii_space 0x2C%N = false /\ (forall c, Hex c \/ c = 0x5C%N -> ascii_space c = false) /\
  findall (bytes_regex ascii_word ascii_space) text = [(List.concat (repeat [0x30; 0x78; 0x31; 0x66; 0x2C] 9) ++ [0x31; 0x66; 0x20; 0x20])%N].
Proof.
  cbv zeta. splits; [reflexivity| |vm_compute; reflexivity]. intros c H. unfold ascii_space, in_block. apply not_true_iff_false. rewrite orb_true_iff, andb_true_iff, N.eqb_eq, !N.leb_le. unfold Hex, Digit in H. lia.
Qed.
