(** The special token splitter of src/tokenizer.rs against [Pieces]. *)
From Verif Require Import Base BaseProofs Utf8 SpecUtf8 Utf8Proofs Tokenizer SpecTokenizer.
Set Implicit Arguments.

Lemma Prefix_starts s p : starts_with s p = true <-> Prefix p s.
Proof. destruct (starts_with_spec s p) as [H|H]; split; auto; discriminate. Qed.

(** ** Characters in a byte string *)

Lemma encode_char_shape c : scalar c ->
  exists b0 t, encode_char c = b0 :: t /\ is_cont b0 = false /\ Forall (fun b => is_cont b = true) t.
Proof.
  unfold scalar, encode_char. intros Hc.
  destruct (N.ltb_spec c 0x80); [|destruct (N.ltb_spec c 0x800); [|destruct (N.ltb_spec c 0x10000)]];
    eexists; eexists; (split; [reflexivity|]); (split; [|repeat constructor]);
    unfold is_cont, in_range; rewrite bN_byte_of_N.
  all: try (apply andb_true_iff; split; apply N.leb_le).
  all: try (apply andb_false_iff).
  all: try match goal with |- (_ <= 0x80 + ?x mod 64)%N => lia end.
  all: try match goal with |- (0x80 + ?x mod 64 <= _)%N => pose proof (N.mod_lt x 64); lia end.
  all: try match goal with |- (0x80 + ?x mod 64 < _)%N => pose proof (N.mod_lt x 64); lia end.
  - left. apply N.leb_gt. lia.
  - lia.
  - right. apply N.leb_gt. lia.
  - pose proof (N.div_lt_upper_bound c 64 32). lia.
  - right. apply N.leb_gt. lia.
  - pose proof (N.div_lt_upper_bound c 4096 16). lia.
  - right. apply N.leb_gt. lia.
  - pose proof (N.div_lt_upper_bound c 262144 5). lia.
Qed.

Definition starts_char (b : bytes) : Prop := match b with [] => True | x :: _ => is_cont x = false end.

Lemma Utf8_starts s : Utf8 s -> starts_char s.
Proof.
  intros (cs & Hcs & ->). destruct cs as [|c cs]; [exact I|]. inversion Hcs as [|? ? Hc _]; subst.
  destruct (encode_char_shape Hc) as (b0 & t & He & Hn & _). unfold encode_string. cbn [map concat].
  rewrite He. exact Hn.
Qed.

Lemma app_cases {A} (a b c d : list A) : a ++ b = c ++ d ->
  (exists e, a = c ++ e /\ d = e ++ b) \/ (exists x e, c = a ++ x :: e /\ b = (x :: e) ++ d).
Proof.
  revert c. induction a as [|x a IH]; intros c H; simpl in H.
  - destruct c as [|y c]; [left; now exists []|right]. exists y, c. now split.
  - destruct c as [|y c]; [left; now exists (x :: a)|]. injection H as -> H.
    destruct (IH c H) as [(e & -> & ->)|(z & e & -> & ->)]; [left; now exists e|right; now exists z, e].
Qed.

(** In valid UTF-8 the character boundaries are the places before a byte that is not a continuation byte. *)
Lemma boundary_Utf8 a : forall b, Utf8 (a ++ b) -> starts_char b -> b <> [] \/ True -> Utf8 a.
Proof.
  intros b (cs & Hcs & He) Hb _. revert a He. induction cs as [|c cs IH]; intros a He.
  - destruct a; [apply Utf8_nil|discriminate].
  - inversion Hcs as [|? ? Hc Hcs']; subst. unfold encode_string in He. cbn [map concat] in He.
    apply app_cases in He as [(e & -> & He)|(x & e & Hx & ->)].
    + apply Utf8_app; [now apply Utf8_char|]. apply IH; auto.
    + destruct a as [|y a]; [apply Utf8_nil|]. exfalso.
      destruct (encode_char_shape Hc) as (b0 & t & Heq & _ & Ht). rewrite Heq in Hx. injection Hx as -> ->.
      rewrite Forall_app in Ht. destruct Ht as [_ Ht]. inversion Ht; subst. simpl in Hb. congruence.
Qed.

Lemma boundary_iff a b : Utf8 (a ++ b) -> is_char_boundary (a ++ b) (length a) = true <-> Utf8 a.
Proof.
  intros H. unfold is_char_boundary. destruct a as [|x a]; cbn [length].
  - split; [|reflexivity]. intros _. apply Utf8_nil.
  - assert (Hn : nth_error ((x :: a) ++ b) (S (length a)) = hd_error b).
    { rewrite nth_error_app2 by (simpl; lia). simpl length. rewrite Nat.sub_diag. now destruct b. }
    rewrite Hn. destruct b as [|y b]; cbn [hd_error].
    + rewrite app_nil_r in *. split; [intros _; exact H|intros _; apply Nat.eqb_refl].
    + split.
      * intros Hy. apply negb_true_iff in Hy. eapply boundary_Utf8; [exact H|exact Hy|now left].
      * intros Ha. apply (fun Hu => Utf8_app_inv _ Hu H) in Ha. apply Utf8_starts in Ha. simpl in Ha. now rewrite Ha.
Qed.

Lemma slice_from_ok a b : Utf8 a -> Utf8 (a ++ b) -> slice_from (a ++ b) (length a) = Ok b.
Proof.
  intros Ha H. unfold slice_from. rewrite (proj2 (boundary_iff a b H) Ha).
  now rewrite skipn_app, skipn_all, Nat.sub_diag.
Qed.
Lemma slice_to_ok a b : Utf8 a -> Utf8 (a ++ b) -> slice_to (a ++ b) (length a) = Ok a.
Proof.
  intros Ha H. unfold slice_to. rewrite (proj2 (boundary_iff a b H) Ha).
  now rewrite firstn_app, firstn_all, Nat.sub_diag, firstn_O, app_nil_r.
Qed.

(** A non-empty valid string can start inside a valid string only at a character boundary. *)
Lemma occurrence_boundary a sp r : Utf8 (a ++ sp ++ r) -> Utf8 sp -> sp <> [] -> Utf8 a.
Proof.
  intros H Hs Hn. apply boundary_Utf8 with (b := sp ++ r); [exact H| |now right].
  apply Utf8_starts in Hs. destruct sp; [congruence|exact Hs].
Qed.

(** ** The inner loop *)

Lemma find_special_some specials s sp :
  find_special specials s = Some sp <-> exists k, special_at specials s k /\ nth_error specials k = Some sp.
Proof.
  induction specials as [|q specials IH]; simpl.
  - split; [discriminate|]. intros (k & [(sp' & Hk & _) _] & _). now destruct k.
  - destruct (starts_with s q) eqn:E.
    + apply Prefix_starts in E. split.
      * intros [= ->]. exists 0. split; [|reflexivity]. split; [now exists sp|]. intros k' sp' Hk. lia.
      * intros (k & [_ Hno] & Hk). destruct k as [|k]; [exact Hk|]. exfalso.
        exact (Hno 0 q (Nat.lt_0_succ k) eq_refl E).
    + assert (Hq : ~ Prefix q s) by (rewrite <- Prefix_starts; congruence).
      rewrite IH. split.
      * intros (k & [(sp' & Hk & Hp) Hno] & Hs). exists (S k). split; [|exact Hs]. split; [now exists sp'|].
        intros [|k'] sp'' Hlt Hk'; [now injection Hk' as ->|]. apply (Hno k'); [lia|exact Hk'].
      * intros ([|k] & [(sp' & Hk & Hp) Hno] & Hs); [injection Hk as ->; contradiction|].
        exists k. split; [|exact Hs]. split; [now exists sp'|]. intros k' sp'' Hlt Hk'. apply (Hno (S k')); [lia|exact Hk'].
Qed.

Lemma find_special_none specials s : find_special specials s = None <-> no_special_at specials s.
Proof.
  unfold no_special_at. induction specials as [|q specials IH]; simpl.
  - split; [|reflexivity]. intros _ sp [].
  - destruct (starts_with s q) eqn:E.
    + apply Prefix_starts in E. split; [discriminate|]. intros H. exfalso. exact (H q (or_introl eq_refl) E).
    + rewrite IH. split.
      * intros H sp [->|Hin]; [rewrite <- Prefix_starts; congruence|auto].
      * auto.
Qed.

Lemma special_at_fun specials s k k' : special_at specials s k -> special_at specials s k' -> k = k'.
Proof.
  intros [(sp & Hk & Hp) Hno] [(sp' & Hk' & Hp') Hno'].
  destruct (Nat.lt_trichotomy k k') as [H|[H|H]]; [|exact H|].
  - exfalso. exact (Hno' _ _ H Hk Hp).
  - exfalso. exact (Hno _ _ H Hk' Hp').
Qed.

Lemma special_at_not_none specials s k : special_at specials s k -> ~ no_special_at specials s.
Proof. intros [(sp & Hk & Hp) _] H. exact (H sp (nth_error_In _ _ Hk) Hp). Qed.

(** ** The scan *)

Lemma encode_string_cons c cs : encode_string (c :: cs) = encode_char c ++ encode_string cs.
Proof. reflexivity. Qed.

Lemma split_scan_spec specials cursor cs : forall a,
  Forall Utf8 specials -> Utf8 a -> Forall scalar cs ->
  let input := a ++ encode_string cs in
  let r := split_scan specials input cursor (offsets (length a) cs) in
  (r = Ok None /\ forall cs1 cs2, cs = cs1 ++ cs2 -> cs2 <> [] -> no_special_at specials (encode_string cs2)) \/
  (exists cs1 cs2 k sp, cs = cs1 ++ cs2 /\ cs2 <> [] /\
     special_at specials (encode_string cs2) k /\ nth_error specials k = Some sp /\
     (forall ds1 ds2, cs1 = ds1 ++ ds2 -> ds2 <> [] -> no_special_at specials (encode_string (ds2 ++ cs2))) /\
     r = match a ++ encode_string cs1 with
         | [] => Ok (Some ((sp, true), cursor + length sp))
         | p => Ok (Some ((p, false), cursor + length p))
         end).
Proof.
  induction cs as [|c cs IH]; intros a Hsp Ha Hcs input r.
  - left. split; [reflexivity|]. intros cs1 cs2 H Hn. destruct cs1; [simpl in H; congruence|discriminate].
  - assert (Hcs0 := Hcs). inversion Hcs as [|? ? Hc Hcs']; subst.
    assert (Hu : Utf8 (a ++ encode_string (c :: cs))).
    { apply Utf8_app; [exact Ha|]. exists (c :: cs). now split. }
    subst r. cbn [offsets split_scan]. unfold input. rewrite slice_from_ok by assumption. cbn [bind].
    destruct (find_special specials (encode_string (c :: cs))) as [sp|] eqn:E.
    + right. apply find_special_some in E as (k & Hk & Hsk).
      exists [], (c :: cs), k, sp. split; [reflexivity|]. split; [discriminate|]. split; [exact Hk|]. split; [exact Hsk|].
      split. { intros ds1 ds2 H Hn. destruct ds1; [simpl in H; congruence|discriminate]. }
      replace (a ++ encode_string []) with a by (unfold encode_string; simpl; now rewrite app_nil_r).
      destruct a as [|x a].
      * simpl (0 <? length []). cbn iota. rewrite app_nil_l in *.
        destruct Hk as [(sp' & Hk & r & Hr) _]. assert (sp' = sp) by congruence. subst sp'. rewrite Hr in *.
        rewrite slice_to_ok; [reflexivity| |exact Hu].
        rewrite Forall_forall in Hsp. apply Hsp. eapply nth_error_In; eauto.
      * simpl (0 <? length (x :: a)). cbn iota. rewrite slice_to_ok by assumption. reflexivity.
    + apply find_special_none in E.
      assert (Ha' : Utf8 (a ++ encode_char c)) by (apply Utf8_app; [exact Ha|now apply Utf8_char]).
      destruct (IH (a ++ encode_char c) Hsp Ha' Hcs') as [[Hr Hno]|(cs1 & cs2 & k & sp & -> & Hn2 & Hk & Hsk & Hno & Hr)];
        rewrite app_length in Hr; rewrite encode_string_cons, app_assoc.
      * left. split; [exact Hr|]. intros cs1 cs2 H Hn. destruct cs1 as [|c' cs1]; simpl in H; [now subst|].
        injection H as -> H. exact (Hno _ _ H Hn).
      * right. exists (c :: cs1), cs2, k, sp. split; [reflexivity|]. split; [exact Hn2|]. split; [exact Hk|]. split; [exact Hsk|].
        split.
        { intros ds1 ds2 H Hn. destruct ds1 as [|c' ds1]; simpl in H; [now subst|].
          injection H as -> H. exact (Hno _ _ H Hn). }
        rewrite Hr, encode_string_cons, app_assoc. reflexivity.
Qed.

Lemma encode_string_app a b : encode_string (a ++ b) = encode_string a ++ encode_string b.
Proof. unfold encode_string. now rewrite map_app, concat_app. Qed.

Lemma encode_string_nil cs : encode_string cs = [] -> cs = [].
Proof.
  destruct cs as [|c cs]; [reflexivity|]. rewrite encode_string_cons. intros H. apply app_eq_nil in H as [H _].
  now apply encode_char_nonempty in H.
Qed.

Lemma encode_string_cut cs : forall a b, Forall scalar cs -> encode_string cs = a ++ b -> Utf8 a ->
  exists cs1 cs2, cs = cs1 ++ cs2 /\ encode_string cs1 = a /\ encode_string cs2 = b.
Proof.
  induction cs as [|c cs IH]; intros a b Hcs H Ha.
  - symmetry in H. apply app_eq_nil in H as [-> ->]. now exists [], [].
  - destruct Ha as ([|d ds] & Hds & Hae).
    + subst a. exists [], (c :: cs). now split.
    + inversion Hcs; inversion Hds; subst. rewrite !encode_string_cons, <- app_assoc in H.
      apply encode_char_prefix in H as [He H]; [|assumption|assumption].
      destruct (IH (encode_string ds) b) as (cs1 & cs2 & -> & G1 & G2); [assumption|exact H|now exists ds|].
      exists (c :: cs1), cs2. split; [reflexivity|]. split; [|exact G2]. rewrite !encode_string_cons. congruence.
Qed.

(** One call of [next], when no special token is empty. *)
Lemma split_next_spec specials pre s :
  Forall Utf8 specials -> Forall (fun sp => sp <> []) specials -> Utf8 pre -> Utf8 s ->
  let r := split_next specials (pre ++ s) (length pre) in
  (s = [] /\ r = Ok None) \/
  (exists k sp rest, s = sp ++ rest /\ special_at specials s k /\ nth_error specials k = Some sp /\
     r = Ok (Some ((sp, true), length (pre ++ sp)))) \/
  (exists p rest, s = p ++ rest /\ p <> [] /\ Utf8 p /\ r = Ok (Some ((p, false), length (pre ++ p))) /\
     (forall a b, p = a ++ b -> b <> [] -> no_special_at specials (b ++ rest)) /\
     (rest = [] \/ exists k, special_at specials rest k)).
Proof.
  intros Hsp Hne Hpre Hs r. subst r. unfold split_next.
  assert (Hu : Utf8 (pre ++ s)) by now apply Utf8_app.
  destruct s as [|x s']; [left; split; [reflexivity|]; rewrite app_nil_r, Nat.leb_refl; reflexivity|].
  right. remember (x :: s') as s eqn:Es.
  replace (length (pre ++ s) <=? length pre) with false.
  2: { symmetry. apply Nat.leb_gt. rewrite app_length. subst s. simpl. lia. }
  assert (Hsn : s <> []) by (subst; discriminate). clear x s' Es.
  rewrite slice_from_ok by assumption. cbn [bind].
  assert (Hs0 := Hs). destruct Hs as (cs & Hcs & Hse). 
  replace (char_indices s) with (offsets 0 cs) by (rewrite Hse; symmetry; exact (char_indices_spec Hcs)).
  assert (Hin : forall a b rest, s = a ++ b ++ rest -> ~ Utf8 a -> no_special_at specials (b ++ rest)).
  { intros a b rest He Hna sp Hi (q & Hq). apply Hna. rewrite He, Hq in Hs0.
    rewrite Forall_forall in Hsp, Hne. exact (occurrence_boundary a q Hs0 (Hsp _ Hi) (Hne _ Hi)). }
  destruct (split_scan_spec (length pre) (a := []) Hsp Utf8_nil Hcs) as [[Hr Hno]|(cs1 & cs2 & k & sp & Hcc & Hn2 & Hk & Hsk & Hno & Hr)];
    cbn [length] in Hr; rewrite app_nil_l in Hr; rewrite <- Hse in Hr; rewrite Hr; cbn [bind].
  - right. exists s, []. split; [now rewrite app_nil_r|]. split; [exact Hsn|]. split; [exact Hs0|].
    split; [reflexivity|]. split; [|now left].
    intros a b Hab Hb. rewrite app_nil_r.
    destruct (utf8_ok a) eqn:Ea.
    + apply utf8_ok_spec in Ea. rewrite Hse in Hab.
      destruct (@encode_string_cut _ _ _ Hcs Hab Ea) as (cs1 & cs2 & Hc & _ & <-).
      apply (Hno cs1); [exact Hc|]. intros ->. now apply Hb.
    + specialize (Hin a b []). rewrite app_nil_r in Hin. apply Hin; [exact Hab|].
      rewrite <- utf8_ok_spec. congruence.
  - subst cs. rewrite encode_string_app in Hse. rewrite app_nil_l in *.
    destruct (encode_string cs1) as [|y p] eqn:Ep.
    + left. apply encode_string_nil in Ep. subst cs1. rewrite app_nil_l in Hse.
      assert (Hk0 := Hk). destruct Hk as [(sp' & Hk' & rest & Hrest) _]. assert (sp' = sp) by congruence. subst sp'.
      exists k, sp, rest. rewrite Hse. split; [exact Hrest|]. split; [exact Hk0|]. split; [exact Hsk|]. cbn [bind]. now rewrite (app_length pre sp).
    + right. set (p' := y :: p) in *. exists p', (encode_string cs2).
      apply Forall_app in Hcs as [Hcs1 Hcs2].
      split; [exact Hse|]. split; [discriminate|]. split; [exists cs1; split; [exact Hcs1|congruence]|].
      split; [cbn [bind]; now rewrite (app_length pre)|]. split; [|right; now exists k].
      intros a b Hab Hb. destruct (utf8_ok a) eqn:Ea.
      * apply utf8_ok_spec in Ea. rewrite <- Ep in Hab.
        destruct (@encode_string_cut _ _ _ Hcs1 Hab Ea) as (ds1 & ds2 & Hc & _ & <-).
        rewrite <- encode_string_app. apply (Hno ds1); [exact Hc|]. intros ->. now apply Hb.
      * apply (Hin a b (encode_string cs2)).
        -- rewrite Hse, Hab, <- app_assoc. reflexivity.
        -- rewrite <- utf8_ok_spec. congruence.
Qed.

(** ** [Pieces] is a function of the text *)

Lemma plain_unique specials p r p' r' :
  p ++ r = p' ++ r' -> p <> [] -> p' <> [] ->
  (forall a b, p = a ++ b -> b <> [] -> no_special_at specials (b ++ r)) ->
  (r = [] \/ exists k, special_at specials r k) ->
  (forall a b, p' = a ++ b -> b <> [] -> no_special_at specials (b ++ r')) ->
  (r' = [] \/ exists k, special_at specials r' k) ->
  p = p' /\ r = r'.
Proof.
  intros He Hp Hp' Hno Hr Hno' Hr'. apply app_cases in He as [(e & -> & ->)|(x & e & -> & ->)].
  - destruct e as [|x e]; [now rewrite app_nil_r|]. exfalso. destruct Hr' as [Hr'|(k & Hk)]; [discriminate|].
    apply (special_at_not_none Hk). apply (Hno p'); [reflexivity|discriminate].
  - exfalso. destruct Hr as [Hr|(k & Hk)]; [discriminate|].
    apply (special_at_not_none Hk). apply (Hno' p); [reflexivity|discriminate].
Qed.

Lemma Pieces_fun specials s ps : Pieces specials s ps -> forall ps', Pieces specials s ps' -> ps = ps'.
Proof.
  induction 1 as [|k sp r ps Hnn Hk Hsk HP IH|p r ps Hp Hno Hend HP IH]; intros ps' H'.
  - inversion H' as [|k sp r ps0 Hnn Hk Hsk HP He|p r ps0 Hp Hno Hend HP He]; [reflexivity| |].
    + exfalso. now apply Hnn.
    + apply app_eq_nil in He as [-> ->]. exfalso; now apply Hp.
  - inversion H' as [He|k' sp' r' ps0 Hnn' Hk' Hsk' HP' He|p r' ps0 Hp Hno Hend HP' He].
    + exfalso. now apply Hnn.
    + assert (k = k') by (rewrite He in Hk'; exact (special_at_fun Hk Hk')). subst k'.
      assert (sp = sp') by congruence. subst sp'. apply app_inv_head in He. subst r'. f_equal. now apply IH.
    + exfalso. apply (special_at_not_none Hk). rewrite <- He. apply (Hno []); [reflexivity|exact Hp].
  - inversion H' as [He|k' sp' r' ps0 Hnn' Hk' Hsk' HP' He|p' r' ps0 Hp' Hno' Hend' HP' He].
    + symmetry in He. apply app_eq_nil in He as [-> _]. exfalso; now apply Hp.
    + exfalso. apply (special_at_not_none Hk'). rewrite He. apply (Hno []); [reflexivity|exact Hp].
    + destruct (plain_unique (eq_sym He) Hp Hp' Hno Hend Hno' Hend') as [-> ->]. f_equal. now apply IH.
Qed.

Lemma Pieces_text specials s ps : Pieces specials s ps -> concat (map (piece_text specials) ps) = s.
Proof.
  induction 1 as [|k sp r ps Hnn Hk Hsk HP IH|p r ps Hp Hno Hend HP IH]; simpl; [reflexivity| |]; rewrite IH; [|reflexivity].
  f_equal. now apply nth_error_nth.
Qed.

Lemma Pieces_length specials s ps :
  Forall (fun sp => sp <> []) specials -> Pieces specials s ps -> length ps <= length s.
Proof.
  intros Hne. induction 1 as [|k sp r ps Hnn Hk Hsk HP IH|p r ps Hp Hno Hend HP IH]; simpl; [lia| |]; rewrite app_length.
  - rewrite Forall_forall in Hne. specialize (Hne _ (nth_error_In _ _ Hsk)). destruct sp; [congruence|simpl; lia].
  - destruct p; [congruence|simpl; lia].
Qed.

(** Never two ordinary pieces in a row. *)
Lemma Pieces_no_adjacent specials s ps :
  Pieces specials s ps -> forall l p q l', ps = l ++ Plain p :: Plain q :: l' -> False.
Proof.
  induction 1 as [|k sp r ps Hnn Hk Hsk HP IH|p r ps Hp Hno Hend HP IH]; intros l p' q l' He.
  - destruct l; discriminate.
  - destruct l as [|x l]; [discriminate|]. injection He as _ He. eauto.
  - destruct l as [|x l]; [|injection He as _ He; eauto].
    simpl in He. injection He as -> ->. inversion HP as [| |q0 r0 ps0 Hq0 Hno0 Hend0 HP0 He1 He2]; subst.
    destruct Hend as [Hend|(k & Hk)]; [apply app_eq_nil in Hend as [-> _]; now apply Hq0|].
    apply (special_at_not_none Hk). apply (Hno0 []); [reflexivity|exact Hq0].
Qed.

(** One call of [next], when the empty string is a special token. *)
Lemma split_next_empty specials pre s :
  Forall Utf8 specials -> In [] specials -> Utf8 pre -> Utf8 s -> s <> [] ->
  exists k sp rest, s = sp ++ rest /\ special_at specials s k /\ nth_error specials k = Some sp /\
     split_next specials (pre ++ s) (length pre) = Ok (Some ((sp, true), length (pre ++ sp))).
Proof.
  intros Hsp Hempty Hpre Hs Hn. unfold split_next.
  assert (Hu : Utf8 (pre ++ s)) by now apply Utf8_app.
  replace (length (pre ++ s) <=? length pre) with false.
  2: { symmetry. apply Nat.leb_gt. rewrite app_length. destruct s; [congruence|simpl; lia]. }
  rewrite slice_from_ok by assumption. cbn [bind].
  destruct Hs as (cs & Hcs & Hse).
  replace (char_indices s) with (offsets 0 cs) by (rewrite Hse; symmetry; exact (char_indices_spec Hcs)).
  destruct (split_scan_spec (length pre) (a := []) Hsp Utf8_nil Hcs) as [[Hr Hno]|(cs1 & cs2 & k & sp & Hcc & Hn2 & Hk & Hsk & Hno & Hr)];
    cbn [length] in Hr; rewrite app_nil_l in Hr; rewrite <- Hse in Hr; rewrite Hr; cbn [bind].
  - exfalso. apply (Hno [] cs eq_refl) with (sp := []); [|exact Hempty|now exists (encode_string cs)].
    intros ->. now apply Hn.
  - rewrite app_nil_l. destruct cs1 as [|c cs1].
    + simpl in Hcc. subst cs2. rewrite <- Hse in Hk. assert (Hk0 := Hk).
      destruct Hk as [(sp' & Hk' & rest & Hrest) _]. assert (sp' = sp) by congruence. subst sp'.
      exists k, sp, rest. split; [exact Hrest|]. split; [exact Hk0|]. split; [exact Hsk|].
      unfold encode_string. cbn [map concat bind]. now rewrite (app_length pre sp).
    + exfalso. apply (Hno [] (c :: cs1) eq_refl) with (sp := []); [discriminate|exact Hempty|].
      now exists (encode_string ((c :: cs1) ++ cs2)).
Qed.
