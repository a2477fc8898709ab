(** C79: what the expressions of datagen.py find, and which samples are dropped for it. *)
From Coq.Strings Require Import String.
From Flocq Require Import BinarySingleNaN.
From Verif Require Import Base BaseProofs F64 SpecUtf8 Utf8 SpecRegex Regex RegexProofs SpecFind Find FindProofs PropFind SpecScripts Scripts SpecDatagen Datagen PropDatagen SpecDatagenRegex DatagenRegex DatagenRegexProofs.
Set Implicit Arguments.
Local Open Scope list_scope.
Local Notation length := List.length.
Local Ltac splits := repeat match goal with |- _ /\ _ => split end.

Lemma hex_iff c : hex c = true <-> Hex c.
Proof. unfold hex, Hex, Digit. rewrite !orb_true_iff, !andb_true_iff, !N.leb_le. lia. Qed.
Lemma base64_iff c : base64 c = true <-> Base64 c.
Proof. unfold base64, Base64, Digit. rewrite !orb_true_iff, !andb_true_iff, !N.leb_le, !N.eqb_eq. cbn [In]. lia. Qed.

(** ** Base64 *)
Definition One_of (p : N -> bool) (u : list N) : Prop := exists c, u = [c] /\ p c = true.
Lemma not_begins p s : ~ Begins (One_of p) s <-> match s with [] => True | c :: _ => p c = false end.
Proof.
  split.
  - intros H. destruct s as [|c s]; [exact I|]. destruct (p c) eqn:E; auto. exfalso. apply H. exists [c], s. split; [exists c; auto|reflexivity].
  - intros H (u & rest & (c & -> & Hc) & ->). cbn in H. congruence.
Qed.
Lemma ones p us : Forall (One_of p) us -> length (List.concat us) = length us /\ Forall (fun c => p c = true) (List.concat us).
Proof. induction 1 as [|u us (c & -> & Hc) H [IH1 IH2]]; cbn; [auto|]. split; auto. Qed.
Lemma chains_runs p n s l : Chains (One_of p) n s l -> exists l', Runs p s l' /\ l = filter (fun m => n <=? length m) l'.
Proof.
  induction 1 as [|c s l H1 H IH|us s l H1 H2 H3 H4 H IH|us s l H1 H2 H3 H4 H IH].
  - exists []. split; constructor.
  - destruct IH as (l' & IH1 & IH2). exists l'. split; auto. constructor; auto. now apply not_begins in H1.
  - destruct IH as (l' & IH1 & IH2). exists (List.concat us :: l'). destruct (ones H3) as [E1 E2]. split.
    + constructor; auto; [|now apply not_begins]. intros E. rewrite E in E1. destruct us; [congruence|discriminate].
    + cbn [filter]. rewrite E1, (proj2 (Nat.leb_gt _ _) H2). exact IH2.
  - destruct IH as (l' & IH1 & IH2). exists (List.concat us :: l'). destruct (ones H3) as [E1 E2]. split.
    + constructor; auto; [|now apply not_begins]. intros E. rewrite E in E1. destruct us; [congruence|discriminate].
    + cbn [filter]. rewrite E1, (proj2 (Nat.leb_le _ _) H2). now f_equal.
Qed.
(** A class that is repeated at least [S n] times finds the maximal stretches of its characters that are so long. *)
Lemma findall_class p n text : exists l, Runs p text l /\ findall (Rep (S n) None true (One p)) text = filter (fun m => S n <=? length m) l.
Proof.
  apply chains_runs. unfold findall. pose proof (find_all_finds text (Rep (S n) None true (One p))) as HF.
  set (unit := fun i => match nth_error text i with Some c => p c | None => false end).
  refine (@find_chains text (One p) 1 unit _ _ _ (One_of p) _ _ _ n false 0 _ HF _); try lia.
  - intros i H. unfold unit in H. destruct (nth_error text i) eqn:E; [|discriminate]. assert (i < length text) by (apply nth_error_Some; congruence). lia.
  - intros i. cbn [tries]. unfold unit. destruct (nth_error text i); auto. now rewrite Nat.add_1_r.
  - intros i H. unfold unit in H. destruct (nth_error text i) as [c|] eqn:E; [|discriminate]. rewrite (@skipn_nth _ text i _ E). exists c. auto.
  - intros i H. unfold unit in H. apply not_begins. destruct (nth_error text i) as [c|] eqn:E; [now rewrite (@skipn_nth _ text i _ E)|]. apply nth_error_None in E. now rewrite skipn_all2.
Qed.
(** The first expression finds the maximal stretches of base64 characters that have at least 64 of them. *)
Theorem C79_base64 : forall p text, (forall c, p c = true <-> Base64 c) -> exists l, Runs p text l /\ findall base64_regex text = filter (fun m => 64 <=? length m) l.
Proof.
  intros p text Hp. destruct (@findall_class base64 63 text) as (l & H1 & H2). exists l. split; [|exact H2].
  assert (Hq : forall c, base64 c = p c) by (intros c; apply eq_true_iff_eq; now rewrite Hp, base64_iff).
  clear - H1 Hq. induction H1 as [|c cs l Hc H IH|cs rest l Hne HF Hr H IH]; [constructor|constructor; auto; now rewrite <- Hq|constructor; auto].
  - eapply Forall_impl; [|exact HF]. intros c Hc. cbn in *. now rewrite <- Hq.
  - destruct rest; auto. now rewrite <- Hq.
Qed.
Print Assumptions C79_base64.
Lemma runs_cover p s l : Runs p s l -> forall a run b, s = a ++ run ++ b -> run <> [] -> Forall (fun c => p c = true) run -> exists m, In m l /\ length run <= length m.
Proof.
  induction 1 as [|c cs l Hc H IH|cs rest l Hne HF Hr H IH]; intros a run b E Hrun HFr.
  - destruct a; [|discriminate]. destruct run; [congruence|discriminate].
  - destruct a as [|c' a].
    + destruct run as [|x run]; [congruence|]. injection E as -> _. inversion HFr. congruence.
    + injection E as _ E. eapply IH; eauto.
  - apply app_eq_app in E as (x & [[E1 E2]|[E1 E2]]).
    + symmetry in E2. apply app_eq_app in E2 as (y & [[E3 E4]|[E3 E4]]).
      * exists cs. split; [left; auto|]. subst. rewrite !app_length. lia.
      * destruct y as [|d y].
        -- exists cs. split; [left; auto|]. rewrite app_nil_r in E3. subst. rewrite app_length. lia.
        -- exfalso. subst rest. cbn in Hr. subst run. apply Forall_app in HFr as [_ HFr]. inversion HFr. congruence.
    + destruct (IH x run b E2 Hrun HFr) as (m & Hm & Hl). exists m. split; [right; exact Hm|exact Hl].
Qed.

(** ** Escapes *)
Definition escape_at (w : list N) (i : nat) : bool :=
  match skipn i w with
  | x :: y :: a :: b :: c :: d :: _ => N.eqb 0x5C x && (N.eqb 0x75 y && (hex a && (hex b && (hex c && hex d))))
  | _ => false
  end.
Lemma nth_skipn_hd A (w : list A) i : nth_error w i = hd_error (skipn i w).
Proof. revert w. induction i as [|i IH]; intros [|x w]; auto. apply IH. Qed.
Lemma skipn_tl A (w : list A) i : skipn (S i) w = tl (skipn i w).
Proof. revert w. induction i as [|i IH]; intros [|x w]; auto. cbn [skipn tl] in *. apply IH. Qed.
Lemma escape_tries w i : tries w (Cat (char 0x5C) (Cat (char 0x75) (Rep 4 (Some 4) true (One hex)))) i = if escape_at w i then [i + 6] else [].
Proof.
  unfold escape_at, char. cbn [tries Nat.leb Nat.sub times optional]. replace (i + 6) with (S (S (S (S (S (S i)))))) by lia.
  rewrite nth_skipn_hd. destruct (skipn i w) as [|x s] eqn:E; [reflexivity|]. cbn [hd_error].
  destruct (N.eqb 0x5C x); [|destruct s as [|? [|? [|? [|? [|? ?]]]]]; reflexivity]. cbn [flat_map]. rewrite nth_skipn_hd, skipn_tl, E. cbn [tl]. rewrite app_nil_r.
  destruct s as [|y s]; [reflexivity|]. cbn [hd_error]. destruct (N.eqb 0x75 y); [|destruct s as [|? [|? [|? [|? ?]]]]; reflexivity]. cbn [flat_map]. rewrite nth_skipn_hd, !skipn_tl, E. cbn [tl].
  destruct s as [|a s]; [reflexivity|]. cbn [hd_error]. destruct (hex a); [|destruct s as [|? [|? [|? ?]]]; reflexivity]. cbn [flat_map]. rewrite nth_skipn_hd, !skipn_tl, E. cbn [tl].
  destruct s as [|b s]; [reflexivity|]. cbn [hd_error]. destruct (hex b); [|destruct s as [|? [|? ?]]; reflexivity]. cbn [flat_map]. rewrite nth_skipn_hd, !skipn_tl, E. cbn [tl].
  destruct s as [|c s]; [reflexivity|]. cbn [hd_error]. destruct (hex c); [|destruct s as [|? ?]; reflexivity]. cbn [flat_map]. rewrite nth_skipn_hd, !skipn_tl, E. cbn [tl].
  destruct s as [|d s]; [reflexivity|]. cbn [hd_error]. destruct (hex d); reflexivity.
Qed.
Lemma escape_at_iff w i : escape_at w i = true <-> Begins Escape (skipn i w).
Proof.
  unfold escape_at. split.
  - destruct (skipn i w) as [|x [|y [|a [|b [|c [|d s]]]]]]; try discriminate. rewrite !andb_true_iff, !N.eqb_eq, !hex_iff. intros (<- & <- & Ha & Hb & Hc & Hd).
    exists [0x5C; 0x75; a; b; c; d]%N, s. split; [exists a, b, c, d; auto 10|reflexivity].
  - intros (u & rest & (a & b & c & d & -> & Ha & Hb & Hc & Hd) & ->). cbn [app]. rewrite !andb_true_iff, !N.eqb_eq, !hex_iff. auto 10.
Qed.
Lemma not_hex_backslash : ~ Hex 0x5C. Proof. unfold Hex, Digit. lia. Qed.
Lemma escape_overlap w i d : escape_at w i = true -> 0 < d < 6 -> escape_at w (i + d) = false.
Proof.
  intros H Hd. apply not_true_iff_false. intros H2. apply escape_at_iff in H, H2. destruct H as (u & rest & (a & b & c & e & -> & Ha & Hb & Hc & He) & E).
  destruct H2 as (u & rest2 & (a2 & b2 & c2 & e2 & -> & _) & E2). replace (i + d) with (d + i) in E2 by lia. rewrite <- skip_skip, E in E2. cbn [app] in E2. pose proof not_hex_backslash.
  do 6 (destruct d as [|d]; [cbn [skipn] in E2; try injection E2 as E2; intros; subst; try lia; try discriminate; tauto|]). lia.
Qed.
(** The third expression finds the maximal stretches of at least eight escapes. *)
Theorem C79_escapes : forall text, Chains Escape 8 text (findall escapes_regex text).
Proof.
  intros text. unfold findall. pose proof (find_all_finds text escapes_regex) as HF.
  refine (@find_chains text _ 6 (escape_at text) _ _ (escape_tries text) Escape _ _ _ 7 false 0 _ HF _); try lia.
  - intros i H. apply escape_at_iff in H as (u & rest & (a & b & c & d & -> & _) & E). assert (length (skipn i text) = 6 + length rest) by now rewrite E. rewrite skipn_length in *. lia.
  - intros i H. apply escape_at_iff in H as (u & rest & Hu & E). rewrite E. destruct Hu as (a & b & c & d & -> & Hu). exists a, b, c, d. auto.
  - intros i H H2. apply escape_at_iff in H2. congruence.
  - apply escape_overlap.
Qed.
Print Assumptions C79_escapes.
(** A longer stretch of escapes in the text is in what is found. *)
Lemma chains_cover n s l : Chains Escape n s l -> forall a us b, s = a ++ List.concat us ++ b -> us <> [] -> n <= length us -> Forall Escape us ->
  exists m, In m l /\ length (List.concat us) <= length m.
Proof.
  assert (Hsix : forall us, Forall Escape us -> length (List.concat us) = 6 * length us).
  { induction 1 as [|u us (a & b & c & d & -> & _) H IH]; [reflexivity|]. cbn [List.concat]. rewrite app_length, IH. cbn [List.length]. lia. }
  (* the stretch begins after the chain, or with one of its escapes *)
  assert (Hal : forall us0 s a u rest, Forall Escape us0 -> Escape u -> List.concat us0 ++ s = a ++ u ++ rest ->
    (exists a', a = List.concat us0 ++ a') \/ exists us1 us2, us0 = us1 ++ us2 /\ a = List.concat us1).
  { induction us0 as [|e es IH]; intros s0 a u rest HF Hu E.
    - left. exists a. reflexivity.
    - inversion HF as [|? ? He HF']; subst. destruct (list_eq_dec N.eq_dec a []) as [->|Hne].
      { right. exists [], (e :: es). auto. }
      cbn [List.concat] in E. rewrite <- app_assoc in E. apply app_eq_app in E as (x & [[E1 E2]|[E1 E2]]).
      + destruct x as [|x0 x].
        * rewrite app_nil_r in E1. subst e. destruct es as [|e' es]; [left; exists []; cbn; now rewrite !app_nil_r|]. right. exists [a], (e' :: es). split; auto. cbn. now rewrite app_nil_r.
        * exfalso. destruct Hu as (a2 & b2 & c2 & d2 & -> & _). injection E2 as <- _. destruct He as (a1 & b1 & c1 & d1 & -> & Ha & Hb & Hc & Hd). pose proof not_hex_backslash.
          destruct a as [|y0 a]; [congruence|]. injection E1 as _ E1. do 5 (destruct a as [|? a]; [injection E1 as E1; intros; subst; try discriminate; tauto|injection E1 as _ E1]). destruct a; discriminate E1.
      + destruct (IH s0 x u rest HF' Hu E2) as [(a' & ->)|(us1 & us2 & -> & ->)].
        * left. exists a'. rewrite E1. cbn [List.concat]. now rewrite app_assoc.
        * right. exists (e :: us1), us2. split; auto. }
  (* from there on it is not longer than the chain *)
  assert (Hpre : forall us us2 s b, Forall Escape us -> Forall Escape us2 -> ~ Begins Escape s -> List.concat us2 ++ s = List.concat us ++ b -> length us <= length us2).
  { induction us as [|u us IH]; intros us2 s0 b HF HF2 Hs E; [cbn; lia|]. inversion HF as [|? ? Hu HF']; subst. destruct us2 as [|u2 us2].
    - exfalso. apply Hs. exists u, (List.concat us ++ b). split; auto. cbn [List.concat app] in E. now rewrite E, <- app_assoc.
    - inversion HF2 as [|? ? Hu2 HF2']; subst. cbn [List.concat] in E. rewrite <- !app_assoc in E.
      assert (List.concat us2 ++ s0 = List.concat us ++ b) as E'. { destruct Hu as (a1 & b1 & c1 & d1 & -> & _). destruct Hu2 as (a2 & b2 & c2 & d2 & -> & _). now injection E. }
      cbn [List.length]. specialize (IH us2 s0 b HF' HF2' Hs E'). lia. }
  induction 1 as [|c s l H1 H IH|us0 s l H1 H2 H3 H4 H IH|us0 s l H1 H2 H3 H4 H IH]; intros a us b E Hne Hn HF.
  - destruct a; [|discriminate]. destruct us as [|u us]; [congruence|]. inversion HF as [|? ? (a1 & b1 & c1 & d1 & -> & _) ?]; subst. discriminate E.
  - destruct a as [|c' a].
    + exfalso. apply H1. destruct us as [|u us]; [congruence|]. inversion HF; subst. exists u, (List.concat us ++ b). split; auto. rewrite E. cbn [List.concat app]. now rewrite <- app_assoc.
    + injection E as _ E. eapply IH; eauto.
  - destruct us as [|u us]; [congruence|]. inversion HF as [|? ? Hu HF']; subst. pose proof E as E0. cbn [List.concat] in E0. rewrite <- app_assoc in E0.
    destruct (Hal us0 s a u _ H3 Hu E0) as [(a' & ->)|(us1 & us2 & -> & ->)].
    + rewrite <- app_assoc in E. apply app_inv_head in E. eapply IH; eauto.
    + exfalso. rewrite concat_app, <- app_assoc in E. apply app_inv_head in E. apply Forall_app in H3 as [_ H3]. pose proof (Hpre (u :: us) us2 s b HF H3 H4 E). rewrite app_length in H2. lia.
  - destruct us as [|u us]; [congruence|]. inversion HF as [|? ? Hu HF']; subst. pose proof E as E0. cbn [List.concat] in E0. rewrite <- app_assoc in E0.
    destruct (Hal us0 s a u _ H3 Hu E0) as [(a' & ->)|(us1 & us2 & -> & ->)].
    + rewrite <- app_assoc in E. apply app_inv_head in E. destruct (IH _ _ _ E Hne Hn HF) as (m & Hm & Hl). exists m. split; [right; exact Hm|exact Hl].
    + rewrite concat_app, <- app_assoc in E. apply app_inv_head in E. pose proof (Hsix _ H3) as E3. apply Forall_app in H3 as [_ H3]. pose proof (Hpre (u :: us) us2 s b HF H3 H4 E).
      exists (List.concat (us1 ++ us2)). split; [left; auto|]. rewrite E3, (Hsix _ HF), app_length. lia.
Qed.

(** ** Lists of bytes *)
Lemma match_char w a i j : Match w (char a) i j -> j = S i /\ nth_error w i = Some a.
Proof. intros H. inversion H; subst. split; auto. match goal with Hp : (_ =? _)%N = true |- _ => apply N.eqb_eq in Hp; now subst end. Qed.
Lemma slice_cons w i j c : nth_error w i = Some c -> i < j -> slice w (i, j) = c :: slice w (S i, j).
Proof. intros H Hl. unfold slice. cbn [fst snd]. rewrite (@skipn_nth _ w i _ H). replace (j - i) with (S (j - S i)) by lia. reflexivity. Qed.
Lemma slice_nil w i : slice w (i, i) = [].
Proof. unfold slice. cbn [fst snd]. now rewrite Nat.sub_diag. Qed.
Lemma slice_app w i j k : i <= j <= k -> k <= length w -> slice w (i, k) = slice w (i, j) ++ slice w (j, k).
Proof.
  intros H Hk. unfold slice. cbn [fst snd]. rewrite <- (firstn_skipn (j - i) (firstn (k - i) (skipn i w))). rewrite firstn_firstn, Nat.min_l by lia. f_equal.
  rewrite skipn_firstn_comm, skip_skip. f_equal; [lia|]. f_equal. lia.
Qed.
Lemma iter_class w p n : forall i j, Iter w (One p) n i j -> length (slice w (i, j)) = n /\ Forall (fun c => p c = true) (slice w (i, j)).
Proof.
  induction n as [|n IH]; intros i j H; inversion H as [|? ? ? k ? HM HI]; subst. { rewrite slice_nil. auto. }
  inversion HM as [|? ? c Hc Hp| | | | |]; subst. pose proof (Iter_le HI). rewrite (@slice_cons w i j c Hc) by lia. destruct (IH _ _ HI). cbn. split; auto.
Qed.
Lemma match_class w p g min max i j : Match w (Rep min max g (One p)) i j -> min <= length (slice w (i, j)) /\ SpecRegex.at_most (length (slice w (i, j))) max /\ Forall (fun c => p c = true) (slice w (i, j)).
Proof. intros H. inversion H as [| | | | | |? ? ? ? n ? ? HI Hn Hm]; subst. destruct (iter_class HI) as [-> HF]. auto. Qed.
Section Bytes.
  Variables (word space : N -> bool).
  Lemma match_entry w i j : Match w (Cat (Look (at_boundary word))
      (Cat (Rep 0 (Some 1) true (Alt (Cat (char 0x30) (char 0x78)) (Cat (char 0x5C) (char 0x78))))
      (Cat (Rep 2 (Some 2) true (One hex))
           (Alt (char 0x2C) (Cat (Look (at_boundary word)) (Rep 0 None true (One space))))))) i j -> Byte_entry space (slice w (i, j)).
  Proof.
    intros H. inversion H as [| | |? ? ? x1 ? H1 H2| | |]; subst. inversion H1 as [| |? ? G1 G2| | | |]; subst. inversion H2 as [| | |? ? ? x2 ? H3 H4| | |]; subst. inversion H4 as [| | |? ? ? x3 ? H5 H6| | |]; subst.
    pose proof (Match_le H3). pose proof (Match_le H5). pose proof (Match_le H6).
    rewrite (@slice_app w x1 x2 j), (@slice_app w x2 x3 j) by lia. apply match_class in H5 as (L1 & L2 & HF). unfold SpecRegex.at_most in L2.
    assert (exists a b, slice w (x2, x3) = [a; b] /\ Hex a /\ Hex b) as (a & b & -> & Ha & Hb).
    { destruct (slice w (x2, x3)) as [|a [|b [|c s]]]; cbn in L1, L2; try lia. inversion HF as [|? ? Ha HF']; subst. inversion HF' as [|? ? Hb HF'']; subst. exists a, b. now rewrite <- !hex_iff. }
    exists (slice w (x1, x2)), a, b, (slice w (x3, j)). splits; auto.
    - inversion H3 as [| | | | | |? ? ? ? n ? ? HI Hn Hm]; subst. cbn in Hm. destruct n as [|[|n]]; [| |lia].
      + inversion HI; subst. rewrite slice_nil. left; auto.
      + inversion HI as [|? ? ? y ? HM HI']; subst. inversion HI'; subst. inversion HM as [| | | |? ? ? ? HA|? ? ? ? HA|]; subst; inversion HA as [| | |? ? ? z ? HA1 HA2| | |]; subst;
          apply match_char in HA1 as [-> N1]; apply match_char in HA2 as [-> N2]; rewrite (@slice_cons w _ _ _ N1), (@slice_cons w _ _ _ N2), slice_nil by lia; cbn; auto.
    - inversion H6 as [| | | |? ? ? ? HA|? ? ? ? HA|]; subst.
      + apply match_char in HA as [-> N1]. left. rewrite (@slice_cons w _ _ _ N1), slice_nil by lia. auto.
      + inversion HA as [| | |? ? ? z ? HA1 HA2| | |]; subst. inversion HA1 as [| |? ? G3 G4| | | |]; subst. right. apply match_class in HA2. tauto.
  Qed.
  (** What the second expression finds are lists of at least eight bytes. *)
  Theorem C79_bytes : forall text, Forall (fun m => exists es, 8 <= length es /\ Forall (Byte_entry space) es /\ m = List.concat es) (findall (bytes_regex word space) text).
  Proof.
    intros text. apply Forall_forall. intros m Hm. apply findall_match in Hm as (i & j & H & ->). inversion H as [| | | | | |? ? ? ? n ? ? HI Hn _]; subst.
    assert (exists es, length es = n /\ Forall (Byte_entry space) es /\ slice text (i, j) = List.concat es) as (es & E1 & E2 & E3).
    { clear - HI. revert i j HI. induction n as [|n IH]; intros i j HI; inversion HI as [|? ? ? k ? HM HI']; subst. { exists []. rewrite slice_nil. auto. }
      destruct (IH _ _ HI') as (es & E1 & E2 & E3). exists (slice text (i, k) :: es). splits; [cbn; lia|constructor; auto; now apply match_entry|].
      pose proof (Match_le HM). pose proof (Iter_le HI'). cbn [List.concat]. rewrite <- E3. apply slice_app; lia. }
    exists es. splits; auto. lia.
  Qed.

  Lemma entry_commas e : space 0x2C%N = false -> Byte_entry space e -> forall a b, e = a ++ 0x2C%N :: b -> b = [].
  Proof.
    intros Hs (pre & x & y & post & -> & Hpre & Hx & Hy & Hpost) a b E. assert (~ Hex 0x2C) as Hh by (unfold Hex, Digit; lia).
    assert (forall a, post = a ++ 0x2C%N :: b -> b = []) as Hp.
    { intros a0 ->. destruct Hpost as [Hp|Hp]. destruct a0 as [|z [|z' a0]]; [now injection Hp as ->|discriminate|discriminate]. apply Forall_app in Hp as [_ Hp]. inversion Hp. congruence. }
    assert (forall a, x :: y :: post = a ++ 0x2C%N :: b -> b = []) as Hp2.
    { intros [|z [|z' a0]] E'; injection E' as E'; intros; subst; try tauto. eapply Hp; eauto. }
    cbn in Hpre. destruct Hpre as [<-|[<-|[<-|[]]]]; cbn [app] in E; [eapply Hp2; eauto| |]; destruct a as [|z [|z' a]]; try discriminate E; injection E as _ _ E; eapply Hp2; eauto.
  Qed.
  Lemma entry_first e : Byte_entry space e -> exists c r, e = c :: r /\ (Hex c \/ c = 0x5C%N).
  Proof.
    intros (pre & x & y & post & -> & Hpre & Hx & _). cbn in Hpre. destruct Hpre as [<-|[<-|[<-|[]]]]; cbn [app]; do 2 eexists; (split; [reflexivity|]); auto. left. unfold Hex, Digit. lia.
  Qed.
  (** In them, no space comes after a comma. *)
  Theorem C79_no_space : forall text m a b, space 0x2C%N = false -> In m (findall (bytes_regex word space) text) -> m <> a ++ [0x2C; 0x20]%N ++ b.
  Proof.
    intros text m a b Hs Hm. pose proof (C79_bytes text) as HF. rewrite Forall_forall in HF. destruct (HF _ Hm) as (es & _ & HE & ->). clear HF Hm. revert a.
    induction HE as [|e es He HE IH]; intros a E; [destruct a; discriminate|]. cbn [List.concat] in E. apply app_eq_app in E as (x & [[E1 E2]|[E1 E2]]).
    - destruct x as [|x0 x]; [cbn in E2; apply (IH []); now rewrite <- E2|]. injection E2 as <- E2. pose proof (entry_commas Hs He _ _ E1) as ->. cbn in E2.
      destruct HE as [|e' es He' HE]; [discriminate|]. apply entry_first in He' as (c & r & -> & Hc). injection E2 as <- _. unfold Hex, Digit in Hc. lia.
    - apply (IH x E2).
  Qed.
  Lemma usual_nth l : forall q, q < length l -> nth_error (usual_list l) (6 * q + 4) = Some 0x2C%N /\ nth_error (usual_list l) (6 * q + 5) = Some 0x20%N.
  Proof.
    induction l as [|x l IH]; intros q Hq; [cbn in Hq; lia|]. destruct q as [|q]; [split; reflexivity|]. cbn [List.length] in Hq. destruct (IH q) as [H1 H2]; [lia|].
    replace (6 * S q + 4) with (6 + (6 * q + 4)) by lia. replace (6 * S q + 5) with (6 + (6 * q + 5)) by lia. cbn [usual_list flat_map app Nat.add nth_error]. auto.
  Qed.
  Lemma usual_length l : length (usual_list l) = 6 * length l.
  Proof. induction l as [|x l IH]; [reflexivity|]. cbn [usual_list flat_map app List.length]. fold (usual_list l). rewrite IH. lia. Qed.
  (** That the second expression finds lists of bytes as they are usually written is false: it finds nothing in them. *)
  Theorem C79_usual_list : forall l, space 0x2C%N = false -> findall (bytes_regex word space) (usual_list l) = [].
  Proof.
    intros l Hs. destruct (findall (bytes_regex word space) (usual_list l)) as [|m ms] eqn:E; auto. exfalso.
    assert (In m (findall (bytes_regex word space) (usual_list l))) as Hm by (rewrite E; left; auto).
    pose proof (C79_bytes (usual_list l)) as HF. rewrite Forall_forall in HF. destruct (HF _ Hm) as (es & Hn & HE & Em).
    assert (16 <= length m) as Hlen.
    { assert (2 * length es <= length m); [|lia]. subst m. clear - HE. induction HE as [|e es (pre & x & y & post & -> & _) HE IH]; [auto|]. cbn [List.concat]. rewrite !app_length. cbn [List.length]. lia. }
    destruct (@findall_match _ _ _ Hm) as (i & j & HM & Es). pose proof (Match_le HM) as Hb. rewrite usual_length in Hb.
    assert (length m = j - i) as Hl. { rewrite Es. unfold slice. cbn [fst snd]. rewrite firstn_length, skipn_length, usual_length. lia. }
    assert (exists q, i <= 6 * q + 4 /\ 6 * q + 5 < j /\ q < length l) as (q & H1 & H2 & H3).
    { exists ((i + 1) / 6). pose proof (Nat.div_mod (i + 1) 6 ltac:(lia)). pose proof (Nat.mod_upper_bound (i + 1) 6 ltac:(lia)). lia. }
    destruct (usual_nth l H3) as [N1 N2]. apply (@C79_no_space (usual_list l) m (slice (usual_list l) (i, 6 * q + 4)) (slice (usual_list l) (6 * q + 6, j)) Hs Hm).
    rewrite Es, (@slice_app _ i (6 * q + 4) j) by (rewrite ?usual_length; lia). f_equal. rewrite (slice_cons _ N1) by lia. replace (S (6 * q + 4)) with (6 * q + 5) by lia. rewrite (slice_cons _ N2) by lia.
    replace (S (6 * q + 5)) with (6 * q + 6) by lia. reflexivity.
  Qed.

  (** A list without the spaces is found as a whole. *)
  Definition entry : re := Cat (Look (at_boundary word))
      (Cat (Rep 0 (Some 1) true (Alt (Cat (char 0x30) (char 0x78)) (Cat (char 0x5C) (char 0x78))))
      (Cat (Rep 2 (Some 2) true (One hex))
           (Alt (char 0x2C) (Cat (Look (at_boundary word)) (Rep 0 None true (One space)))))).
  Lemma entry_tries w i a b rest : skipn i w = [0x30; 0x78; a; b; 0x2C]%N ++ rest -> at_boundary word w i = true -> Hex a -> Hex b -> hd_error (tries w entry i) = Some (i + 5).
  Proof.
    intros E Hb Ha Hbb. apply hex_iff in Ha, Hbb. unfold entry, char.
    assert (N0 : nth_error w i = Some 0x30%N) by (rewrite nth_skipn_hd, E; reflexivity).
    assert (N1 : nth_error w (S i) = Some 0x78%N) by (rewrite nth_skipn_hd, skipn_tl, E; reflexivity).
    assert (N2 : nth_error w (S (S i)) = Some a) by (rewrite nth_skipn_hd, !skipn_tl, E; reflexivity).
    assert (N3 : nth_error w (S (S (S i))) = Some b) by (rewrite nth_skipn_hd, !skipn_tl, E; reflexivity).
    assert (N4 : nth_error w (S (S (S (S i)))) = Some 0x2C%N) by (rewrite nth_skipn_hd, !skipn_tl, E; reflexivity).
    cbn [tries Nat.leb Nat.sub times optional]. rewrite Hb. cbn [flat_map]. rewrite N0. change (48 =? 48)%N with true. change (92 =? 48)%N with false. cbn [flat_map app]. rewrite N1. change (120 =? 120)%N with true. cbn [flat_map app more_or].
    rewrite N2, Ha. cbn [flat_map app]. rewrite N3, Hbb. cbn [flat_map app]. rewrite N4. change (44 =? 44)%N with true. cbn [app hd_error]. f_equal. lia.
  Qed.
  Lemma dense_skip l : forall q, skipn (5 * q) (dense_list l) = dense_list (skipn q l).
  Proof.
    induction l as [|x l IH]; intros q; [destruct q; cbn [skipn dense_list flat_map]; now rewrite ?skipn_nil|]. destruct q as [|q]; [reflexivity|].
    replace (5 * S q) with (5 + 5 * q) by lia. cbn [dense_list flat_map app Nat.add skipn]. apply IH.
  Qed.
  Lemma dense_length l : length (dense_list l) = 5 * length l.
  Proof. induction l as [|x l IH]; [reflexivity|]. cbn [dense_list flat_map app List.length]. fold (dense_list l). rewrite IH. lia. Qed.
  Theorem C79_dense_list : forall l, 8 <= length l -> Forall (fun b => Hex (fst b) /\ Hex (snd b)) l -> word 0x30%N = true -> word 0x2C%N = false ->
    findall (bytes_regex word space) (dense_list l) = [dense_list l].
  Proof.
    intros l Hn HF W0 W1. set (w := dense_list l). assert (Hlen : length w = 5 * length l) by apply dense_length.
    assert (Hstep : forall q, q < length l -> hd_error (tries w entry (5 * q)) = Some (5 * S q)).
    { intros q Hq. destruct (nth_error l q) as [[a b]|] eqn:E. 2: { apply nth_error_None in E. lia. } rewrite Forall_forall in HF. destruct (HF _ (nth_error_In _ _ E)) as [Ha Hb].
      assert (Es : skipn (5 * q) w = [0x30; 0x78; a; b; 0x2C]%N ++ dense_list (skipn (S q) l)). { unfold w. rewrite dense_skip, (@skipn_nth _ l q _ E). reflexivity. }
      rewrite (@entry_tries w (5 * q) a b _ Es); [f_equal; lia| |exact Ha|exact Hb]. unfold at_boundary, word_boundary.
      assert (Regex.after word w (5 * q) = true) as ->. { unfold Regex.after. now rewrite nth_skipn_hd, Es. }
      assert (Regex.before word w (5 * q) = false) as ->; [|reflexivity]. unfold Regex.before. destruct q as [|q]; [reflexivity|]. replace (5 * S q) with (S (4 + 5 * q)) by lia.
      assert (exists b', nth_error l q = Some b') as [b' Eb]. { destruct (nth_error l q) eqn:Eq; eauto. apply nth_error_None in Eq. lia. }
      replace (nth_error w (4 + 5 * q)) with (Some 0x2C%N); [exact W1|]. symmetry. rewrite nth_skipn_hd. rewrite <- skip_skip. unfold w. rewrite dense_skip, (@skipn_nth _ l q _ Eb). reflexivity. }
    assert (Hend : tries w entry (length w) = []).
    { destruct (tries w entry (length w)) as [|j t] eqn:E; auto. exfalso. assert (In j (tries w entry (length w))) as Hin by (rewrite E; left; auto). apply tries_spec in Hin; auto.
      pose proof (Match_le Hin). apply match_entry in Hin as (pre & x & y & post & Es & _). assert (j = length w) by lia. subst j. rewrite slice_nil in Es. destruct pre; discriminate. }
    assert (Hplus : forall n q, q < length l -> length l - q <= n -> forall fuel, n < fuel -> hd_error (plus (tries w entry) true fuel (5 * q)) = Some (length w)).
    { induction n as [|n IH]; intros q Hq Hn' fuel Hf; [lia|]. destruct fuel as [|fuel]; [lia|]. cbn [plus]. specialize (Hstep q Hq). destruct (tries w entry (5 * q)) as [|j t]; [discriminate|]. assert (j = 5 * S q) as -> by (cbn [hd_error] in Hstep; congruence).
      cbn [flat_map]. rewrite (proj2 (Nat.eqb_neq (5 * S q) (5 * q))) by lia. unfold more_or at 1. destruct (Nat.eq_dec (S q) (length l)) as [Eq|Eq].
      - replace (5 * S q) with (length w) by lia. destruct fuel as [|fuel]; [lia|]. cbn [plus]. rewrite Hend. reflexivity.
      - specialize (IH (S q) ltac:(lia) ltac:(lia) fuel ltac:(lia)). destruct (plus (tries w entry) true fuel (5 * S q)) as [|x p]; [discriminate|exact IH]. }
    assert (Htimes : forall k q, q + k <= length l -> hd_error (times (tries w entry) k (5 * q)) = Some (5 * (q + k))).
    { induction k as [|k IH]; intros q Hk; [cbn [times hd_error]; f_equal; lia|]. cbn [times]. specialize (Hstep q ltac:(lia)). destruct (tries w entry (5 * q)) as [|j t]; [discriminate|]. assert (j = 5 * S q) as -> by (cbn [hd_error] in Hstep; congruence).
      cbn [flat_map]. specialize (IH (S q) ltac:(lia)). destruct (times (tries w entry) k (5 * S q)) as [|x p]; [discriminate|]. cbn [app hd_error] in *. rewrite IH. f_equal. lia. }
    assert (HC : Choice w (bytes_regex word space) 0 (length w)).
    { apply choice_spec. split; [lia|]. change (tries w (bytes_regex word space) 0) with (flat_map (plus (tries w entry) true (S (length w))) (times (tries w entry) 7 (5 * 0))).
      specialize (Htimes 7 0 ltac:(lia)). destruct (times (tries w entry) 7 (5 * 0)) as [|x p]; [discriminate|]. assert (x = 5 * (0 + 7)) as -> by (cbn [hd_error] in Htimes; congruence). cbn [flat_map].
      specialize (Hplus (length l) 7 ltac:(lia) ltac:(lia) (S (length w)) ltac:(lia)). change (5 * (0 + 7)) with (5 * 7). destruct (plus (tries w entry) true (S (length w)) (5 * 7)) as [|y p']; [discriminate|exact Hplus]. }
    assert (HFi : Finds w (bytes_regex word space) false 0 [(0, length w)]).
    { apply F_found; [lia|intros; lia|exact HC|intros [H _]; discriminate|]. apply F_none. intros i j Hi HM. pose proof (Match_le HM). assert (i = length w /\ j = length w) as [-> ->] by lia.
      inversion HM as [| | | | | |? ? ? ? n ? ? HI Hm _]; subst. inversion HI as [|? ? ? k ? HM1 HI1]; subst; [lia|]. apply tries_spec in HM1; auto. change (In k (tries w entry (length w))) in HM1. rewrite Hend in HM1. destruct HM1. }
    unfold findall. rewrite <- (@Finds_fun _ _ _ _ _ _ HFi (find_all_finds _ _)). cbn [map]. f_equal. unfold slice. cbn [fst snd]. rewrite Nat.sub_0_r. apply firstn_all.
  Qed.
End Bytes.
Print Assumptions C79_dense_list.
Print Assumptions C79_bytes.
Print Assumptions C79_no_space.
Print Assumptions C79_usual_list.
Theorem C79_usual_found_refuted : forall word space, space 0x2C%N = false ->
  ~ (forall l, 8 <= length l -> Forall (fun b => Hex (fst b) /\ Hex (snd b)) l -> findall (bytes_regex word space) (usual_list l) <> []).
Proof.
  intros word space Hs H. apply (H (repeat (0x31, 0x32)%N 300)); [rewrite repeat_length; lia| |now apply C79_usual_list].
  apply Forall_forall. intros b Hb. apply repeat_spec in Hb as ->. cbn [fst snd]. unfold Hex, Digit. lia.
Qed.
Print Assumptions C79_usual_found_refuted.

(** ** The samples *)
(** A sample that is kept has no stretch of more than 256 base64 characters, and none of more than 42 escapes. *)
Theorem C79_kept : forall is_digit word space lang s, kept is_digit (regexes word space) lang s ->
  (forall a run b, content s = a ++ run ++ b -> Forall Base64 run -> length run <= 256) /\
  (forall a us b, content s = a ++ List.concat us ++ b -> Forall Escape us -> length us <= 42).
Proof.
  intros is_digit word space lang s (_ & _ & _ & _ & _ & _ & HF & _). unfold regexes in HF. cbn [map] in HF. inversion HF as [|? ? [H1 _] HF2]; subst. inversion HF2 as [|? ? _ HF3]; subst.
  inversion HF3 as [|? ? [H3 _] _]; subst. rewrite Forall_forall in H1, H3. split.
  - intros a run b E Hr. destruct (Nat.le_gt_cases (length run) 256) as [|Hlong]; auto. exfalso. destruct (@C79_base64 base64 (content s) base64_iff) as (l & HR & El).
    assert (Forall (fun c => base64 c = true) run) as Hr' by (eapply Forall_impl; [|exact Hr]; intros c; apply base64_iff).
    destruct (@runs_cover _ _ _ HR a run b E) as (m & Hm & Hl); auto. { intros ->. cbn in Hlong. lia. }
    specialize (H1 m). rewrite El, filter_In, Nat.leb_le in H1. assert (length m <= 256) by (apply H1; split; auto; lia). lia.
  - intros a us b E Hu. destruct (Nat.le_gt_cases (length us) 42) as [|Hlong]; auto. exfalso.
    destruct (@chains_cover _ _ _ (C79_escapes (content s)) a us b E) as (m & Hm & Hl); auto; try lia. { intros ->. cbn in Hlong. lia. }
    apply H3 in Hm. assert (Hsix : length (List.concat us) = 6 * length us); [|lia].
    clear - Hu. induction Hu as [|u us (a & b & c & d & -> & _) H IH]; [reflexivity|]. cbn [List.concat]. rewrite app_length, IH. cbn [List.length]. lia.
Qed.
Print Assumptions C79_kept.
(** With these expressions the run does not fail, and C76 says what it writes. *)
Theorem C79_files : forall is_digit word space lang train test samples, (0 <= train)%Z ->
  Forall (fun s => content s <> [] /\ (Z.of_nat (length (content s)) <= 2 ^ 49)%Z /\ is_finite (avg_line_length s) = true /\ is_finite (alphanum_fraction s) = true) samples ->
  exists r good k m, generate_the_stack is_digit (regexes word space) lang train test samples = Some r /\ Sifted (kept is_digit (regexes word space) lang) samples good /\
    let texts := map (fun s => encode_string (content s)) good in
    fewest test texts k /\ fewest (test + train) texts m /\ k <= m /\
    test_file r = stored (firstn k texts) /\ train_file r = stored (skipn k (firstn m texts)) /\ bytes_written r = stored_bytes (firstn m texts).
Proof.
  intros is_digit word space lang train test samples Ht HF. apply C76_files; auto. eapply Forall_impl; [|exact HF]. intros s (H1 & H2 & H3 & H4). unfold usable. splits; auto.
  unfold regexes. cbn [map]. repeat constructor; apply findall_total.
Qed.
Print Assumptions C79_files.

(** ** Examples *)
Definition ascii_word (c : N) : bool := in_block 0x30 0x39 c || in_block 0x41 0x5A c || in_block 0x61 0x7A c || N.eqb c 0x5F.
Definition ascii_space (c : N) : bool := N.eqb c 0x20 || in_block 0x09 0x0D c.
Example C79_example :
  findall base64_regex ([0x20]%N ++ repeat 0x61%N 63 ++ [0x20]%N ++ repeat 0x41%N 70 ++ [0x2D]%N) = [repeat 0x41%N 70] /\
  findall escapes_regex (List.concat (repeat [0x5C; 0x75; 0x30; 0x30; 0x65; 0x39]%N 7)) = [] /\
  findall escapes_regex ([0x5C]%N ++ List.concat (repeat [0x5C; 0x75; 0x30; 0x30; 0x65; 0x39]%N 9) ++ [0x5C; 0x75]%N) = [List.concat (repeat [0x5C; 0x75; 0x30; 0x30; 0x65; 0x39]%N 9)].
Proof. splits; vm_compute; reflexivity. Qed.
(** With nothing or white space between them bytes are found, and with commas; not with a comma and a space. *)
Example C79_bytes_example : let r := bytes_regex ascii_word ascii_space in
  let spaces := List.concat (repeat [0x30; 0x78; 0x31; 0x32; 0x20]%N 8) in let commas := List.concat (repeat [0x31; 0x66; 0x2C]%N 8) in
  let escapes := List.concat (repeat [0x5C; 0x78; 0x31; 0x66]%N 8) in
  findall r spaces = [spaces] /\ findall r commas = [commas] /\ findall r (0x61%N :: escapes) = [escapes] /\ ascii_space 0x2C%N = false /\
  findall r (usual_list (repeat (0x31, 0x32)%N 12)) = [].
Proof. cbv zeta. splits; vm_compute; reflexivity. Qed.
(** A sample with 256 base64 characters in a row passes the first expression, one with 257 does not. *)
Example C79_kept_example : let sample n := StackSample (repeat 0x61%N n ++ repeat 0x20%N 300) 600 (f64_of_Z 10) 10 (literal 9 11) in
  filters ascii_digit (regexes ascii_word ascii_space) "json" (sample 256) no_stats = Some (no_stats, true) /\
  filters ascii_digit (regexes ascii_word ascii_space) "json" (sample 257) no_stats = Some (count_regex no_stats, false).
Proof. cbv zeta. split; vm_compute; reflexivity. Qed.
