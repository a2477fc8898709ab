(** The regular expressions that are put together from others: how they are parsed and what they match. *)
From Coq.Strings Require Import String.
From Verif Require Import Base BaseProofs Utf8 SpecUtf8 Utf8Proofs SpecJson Json SpecRegex Regex RegexProofs RegexCompose Patterns.
Set Implicit Arguments.
Local Open Scope list_scope.

(** ** The characters of a text *)
Lemma chars_fuel_enough fuel : forall fuel' s, List.length s <= fuel -> List.length s <= fuel' -> chars_fuel fuel s = chars_fuel fuel' s.
Proof.
  induction fuel as [|fuel IH]; intros fuel' s H1 H2.
  - destruct s; [|simpl in H1; lia]. destruct fuel'; reflexivity.
  - destruct fuel' as [|fuel']; [destruct s; [reflexivity|simpl in H2; lia]|]. cbn [chars_fuel]. destruct s as [|b s]; auto.
    destruct (utf8_step (b :: s)) as [n|n] eqn:E; auto. f_equal. pose proof (@utf8_step_nonzero (b :: s) n ltac:(discriminate) E) as Hn.
    apply IH; rewrite skipn_length; cbn [List.length] in *; lia.
Qed.
Lemma char_value_encode c : scalar c -> char_value (encode_char c) = c.
Proof.
  unfold scalar, encode_char. intros Hc.
  destruct (N.ltb_spec c 0x80); [|destruct (N.ltb_spec c 0x800); [|destruct (N.ltb_spec c 0x10000)]];
    cbn [char_value]; rewrite !bN_byte_of_N by lia; lia.
Qed.
Lemma chars_fuel_step fuel s n : s <> [] -> utf8_step s = GoodChar n -> chars_fuel (S fuel) s = char_value (firstn n s) :: chars_fuel fuel (skipn n s).
Proof. intros H1 H2. destruct s; [congruence|]. cbn [chars_fuel]. rewrite H2. reflexivity. Qed.
Lemma chars_char c s : scalar c -> chars (encode_char c ++ s) = c :: chars s.
Proof.
  intros Hc. unfold chars. pose proof (encode_char_length c) as Hl.
  assert (encode_char c ++ s <> []) as Hne. { intros E. apply (f_equal (@List.length byte)) in E. rewrite app_length in E. simpl in E. lia. }
  replace (List.length (encode_char c ++ s)) with (S (List.length (encode_char c ++ s) - 1)) by (rewrite app_length; lia).
  rewrite (chars_fuel_step _ Hne (utf8_step_char _ Hc)).
  rewrite firstn_app, firstn_all, Nat.sub_diag. cbn [firstn]. rewrite app_nil_r, char_value_encode by auto. f_equal.
  rewrite skipn_app, skipn_all, Nat.sub_diag. cbn [skipn app]. apply chars_fuel_enough; rewrite ?app_length; lia.
Qed.
Lemma chars_encode cs s : Forall scalar cs -> chars (encode_string cs ++ s) = cs ++ chars s.
Proof.
  induction 1 as [|c cs Hc Hcs IH]; [reflexivity|]. unfold encode_string in *. cbn [map List.concat]. rewrite <- app_assoc, chars_char by auto.
  cbn [app]. f_equal. exact IH.
Qed.
Lemma chars_app a b : Utf8 a -> chars (a ++ b) = chars a ++ chars b.
Proof.
  intros (cs & H & ->). pose proof (chars_encode [] H) as E. rewrite !app_nil_r in E. rewrite E. now apply chars_encode.
Qed.

(** ** Alternatives *)
Section Join.
  Variable same_letter : N -> list N.
  Variables (unicode_digit unicode_word : N -> bool).
  Variable unicode_class : list N -> option (N -> bool).
  Variables (alphabetic alphanumeric : N -> bool).
  Notation p_loop := (parse_loop same_letter unicode_digit unicode_word unicode_class alphabetic alphanumeric).
  Notation p_regex := (parse_regex same_letter unicode_digit unicode_word unicode_class alphabetic alphanumeric).

  Lemma loop_group fuel names cs y alts cat r n : p_regex cs = Some (r, n) -> Safe no_flags cs -> List.length cs < fuel ->
    p_loop (S fuel) no_flags names (bN "(" :: bN "?" :: bN ":" :: cs ++ bN ")" :: y) alts cat =
    if clash n names then None else p_loop fuel no_flags (n ++ names) y alts (Some r :: cat).
  Proof.
    intros Hp HS Hf. unfold parse_regex in Hp.
    destruct (p_loop (S (List.length cs)) no_flags [] cs [] []) as [[[r' [|]] n']|] eqn:E; try discriminate Hp. injection Hp as -> ->.
    apply (@parse_loop_ext y _ _ _ _ _ _ _ fuel) in E; auto. destruct E as [_ E]. cbn [app] in E.
    pose proof (loop_names same_letter unicode_digit unicode_word unicode_class alphabetic alphanumeric names fuel no_flags [] (cs ++ bN ")" :: y) [] []) as Hn.
    rewrite E in Hn. destruct Hn as (new & En & Hn). rewrite app_nil_r in En. subst new. cbn [app] in Hn.
    cbn [parse_loop bump_space f_x no_flags]. change (is ")" (bN "(")) with false. change (is "|" (bN "(")) with false. change (is "(" (bN "(")) with true. cbv iota.
    assert (forall s, open_group alphabetic alphanumeric no_flags names (bN "?" :: bN ":" :: s) = Some (Group no_flags names, s)) as Ho.
    { intros s. destruct s; reflexivity. }
    change (Flags false false false false false false) with no_flags. rewrite Ho, Hn. destruct (clash n names); reflexivity.
  Qed.

  Definition item (anchored : bool) (cs : list N) : list N :=
    (if anchored then [bN "^"] else []) ++ bN "(" :: bN "?" :: bN ":" :: cs ++ bN ")" :: (if anchored then [bN "$"] else []).
  Fixpoint joined (anchored : bool) (css : list (list N)) : list N :=
    match css with
    | [] => []
    | [cs] => item anchored cs
    | cs :: css' => item anchored cs ++ bN "|" :: joined anchored css'
    end.
  Definition body (anchored : bool) (r : re) : re := if anchored then Cat (Look text_start) (Cat r (Look text_end)) else r.
  Fixpoint alts_re (anchored : bool) (alts : list re) (rs : list re) : re :=
    match rs with
    | [] => alt_of alts Empty
    | [r] => alt_of alts (body anchored r)
    | r :: rs' => alts_re anchored (body anchored r :: alts) rs'
    end.
  Fixpoint all_names (names : list (list N)) (ns : list (list (list N))) : option (list (list N)) :=
    match ns with
    | [] => Some names
    | n :: ns' => if clash n names then None else all_names (n ++ names) ns'
    end.

  Lemma loop_item anchored fuel names cs y alts r n : p_regex cs = Some (r, n) -> Safe no_flags cs -> List.length (item anchored cs ++ y) < fuel ->
    exists fuel2 cat, List.length y < fuel2 /\ cat_of cat = body anchored r /\
    p_loop fuel no_flags names (item anchored cs ++ y) alts [] = if clash n names then None else p_loop fuel2 no_flags (n ++ names) y alts cat.
  Proof.
    intros Hp HS Hf. unfold item in *. destruct anchored.
    - cbn [app] in *. rewrite <- app_assoc in *. cbn [app] in *. simpl List.length in Hf. rewrite app_length in Hf. simpl in Hf.
      destruct fuel as [|fuel]; [lia|]. destruct fuel as [|fuel]; [lia|]. destruct fuel as [|fuel]; [lia|].
      exists fuel, [Some (Look text_end); Some r; Some (Look text_start)]. split; [lia|]. split; [reflexivity|].
      transitivity (p_loop (S (S fuel)) no_flags names (bN "(" :: bN "?" :: bN ":" :: cs ++ bN ")" :: bN "$" :: y) alts [Some (Look text_start)]); [reflexivity|].
      rewrite (@loop_group (S fuel) names cs (bN "$" :: y) alts [Some (Look text_start)] r n Hp HS) by lia. destruct (clash n names); reflexivity.
    - cbn [app] in *. rewrite <- app_assoc in *. cbn [app] in *. simpl List.length in Hf. rewrite app_length in Hf. simpl in Hf.
      destruct fuel as [|fuel]; [lia|]. exists fuel, [Some r]. split; [lia|]. split; [destruct r; reflexivity|].
      apply loop_group; auto. lia.
  Qed.
  Lemma joined_parse anchored css : forall rns fuel names alts, Forall2 (fun cs rn => p_regex cs = Some rn) css rns -> Forall (Safe no_flags) css ->
    css <> [] -> List.length (joined anchored css) < fuel ->
    p_loop fuel no_flags names (joined anchored css) alts [] =
    match all_names names (map snd rns) with None => None | Some names2 => Some (alts_re anchored alts (map fst rns), [], names2) end.
  Proof.
    induction css as [|cs css IH]; intros rns fuel names alts HF HS Hne Hf; [congruence|]. inversion HF as [|? [r n] ? rns' Hp HF' E1 E2]; subst.
    inversion HS as [|? ? HS1 HS2]; subst. cbn [map snd fst all_names]. destruct css as [|cs2 css].
    - inversion HF'; subst. cbn [joined] in *. rewrite <- (app_nil_r (item anchored cs)) in *.
      destruct (@loop_item anchored fuel names cs [] alts r n Hp HS1 Hf) as (fuel2 & cat & H1 & H2 & H3). rewrite H3.
      destruct (clash n names); [reflexivity|]. cbn [map all_names alts_re]. destruct fuel2; [lia|]. cbn [parse_loop bump_space f_x no_flags]. rewrite H2. reflexivity.
    - assert (joined anchored (cs :: cs2 :: css) = item anchored cs ++ bN "|" :: joined anchored (cs2 :: css)) as Ej by reflexivity. rewrite Ej in *.
      set (y := joined anchored (cs2 :: css)) in *.
      destruct (@loop_item anchored fuel names cs (bN "|" :: y) alts r n Hp HS1 Hf) as (fuel2 & cat & H1 & H2 & H3). rewrite H3.
      destruct (clash n names); [reflexivity|]. destruct fuel2; [lia|].
      transitivity (p_loop fuel2 no_flags (n ++ names) y (cat_of cat :: alts) []); [reflexivity|].
      rewrite H2. unfold y. rewrite (IH rns'); auto; [|discriminate|simpl in H1; fold y; lia].
      inversion HF' as [|? rn2 ? rns2]; subst. reflexivity.
  Qed.
  Lemma joined_regex anchored css rns : Forall2 (fun cs rn => p_regex cs = Some rn) css rns -> Forall (Safe no_flags) css ->
    p_regex (joined anchored css) = match all_names [] (map snd rns) with None => None | Some names => Some (alts_re anchored [] (map fst rns), names) end.
  Proof.
    intros HF HS. destruct css as [|cs css]. { inversion HF. reflexivity. }
    unfold parse_regex. rewrite (joined_parse anchored [] [] HF HS) by (auto; discriminate). destruct (all_names [] (map snd rns)); reflexivity.
  Qed.

End Join.

Lemma Match_alt w alts : forall last i j, Match w (alt_of alts last) i j <-> Match w last i j \/ exists a, In a alts /\ Match w a i j.
Proof.
  unfold alt_of. induction alts as [|a alts IH]; intros last i j; cbn [fold_left].
  - split; auto. intros [H|(a & [] & _)]; auto.
  - rewrite IH. split.
    + intros [H|(b & H1 & H2)]; [|right; exists b; split; auto; right; auto]. inversion H; subst; auto. right. exists a. split; auto. left; auto.
    + intros [H|(b & [<-|H1] & H2)]; [left; now apply M_right|left; now apply M_left|right; eauto].
Qed.
Lemma Match_alts anchored w i j rs : forall alts, rs <> [] -> Match w (alts_re anchored alts rs) i j <->
  (exists r, In r rs /\ Match w (body anchored r) i j) \/ exists a, In a alts /\ Match w a i j.
Proof.
  induction rs as [|r rs IH]; intros alts Hne; [congruence|]. destruct rs as [|r2 rs].
  - cbn [alts_re]. rewrite Match_alt. split; (intros [H|H]; [left|right; auto]); [exists r; split; auto; left; auto|destruct H as (r' & [<-|[]] & H); auto].
  - assert (alts_re anchored alts (r :: r2 :: rs) = alts_re anchored (body anchored r :: alts) (r2 :: rs)) as -> by reflexivity.
    rewrite IH by discriminate. split.
    + intros [(r' & H1 & H2)|(a & [<-|H1] & H2)]; [left; exists r'; split; auto; right; auto|left; exists r; split; auto; left; auto|right; eauto].
    + intros [(r' & [<-|H1] & H2)|(a & H1 & H2)]; [right; eexists; split; [left; reflexivity|auto]|left; eauto|right; exists a; split; auto; right; auto].
Qed.
Lemma Match_anchored w r i j : Match w (body true r) i j <-> i = 0 /\ j = List.length w /\ Whole w r.
Proof.
  unfold body, Whole. split.
  - intros H. inversion H as [| | |? ? ? k ? H1 H2| | |]; subst. inversion H1 as [| |? ? ? H3| | | |]; subst. apply Nat.eqb_eq in H3. subst k.
    inversion H2 as [| | |? ? ? k ? H4 H5| | |]; subst. inversion H5 as [| |? ? ? H6| | | |]; subst. apply Nat.eqb_eq in H6. subst. auto.
  - intros (-> & -> & H). apply M_cat with 0; [apply M_look; [lia|reflexivity]|]. apply M_cat with (List.length w); auto.
    apply M_look; [lia|]. apply Nat.eqb_refl.
Qed.

(** No name twice. *)
Lemma clash_false a b : clash a b = false <-> forall n, In n a -> ~ In n b.
Proof.
  unfold clash. rewrite <- not_true_iff_false, existsb_exists. split.
  - intros H n H1 H2. apply H. exists n. split; auto. apply existsb_exists. exists n. split; auto. now apply chars_eqb_eq.
  - intros H (n & H1 & H2). apply existsb_exists in H2. destruct H2 as (m & H2 & H3). apply chars_eqb_eq in H3. subst m. eapply H; eauto.
Qed.
Lemma all_names_ok ns : forall names, all_names names ns <> None <-> Forall (Apart names) ns /\ ForallOrdPairs Apart ns.
Proof.
  induction ns as [|n ns IH]; intros names; cbn [all_names].
  - split; [|discriminate]. split; constructor.
  - destruct (clash n names) eqn:E.
    + split; [congruence|]. intros [H _]. inversion H as [|? ? H1 _]; subst. assert (clash n names = false) by (apply clash_false; intros x H2 H3; eapply H1; eauto).
      congruence.
    + rewrite IH. rewrite clash_false in E. split.
      * intros [H1 H2]. rewrite Forall_forall in H1. split.
        -- constructor. intros x H3 H4. eapply E; eauto. apply Forall_forall. intros m Hm x H3. apply (H1 m Hm). apply in_app_iff; auto.
        -- constructor; auto. apply Forall_forall. intros m Hm x H3. apply (H1 m Hm). apply in_app_iff; auto.
      * intros [H1 H2]. inversion H1 as [|? ? H3 H4]; subst. inversion H2 as [|? ? H5 H6]; subst. split; auto.
        rewrite Forall_forall in *. intros m Hm x Hx. apply in_app_iff in Hx. destruct Hx; [eapply H5|eapply H4]; eauto.
Qed.

(** ** The texts *)
Lemma Comments_end_Safe cs : Comments_end cs -> Safe no_flags cs.
Proof.
  intros [H|H]; [left|right].
  - exact H.
  - split; auto. intros (a & fl & b & -> & H1 & H2). apply H. exists a, fl, b. split; [reflexivity|]. split; [exact H1|].
    eapply Forall_impl; [|exact H2]. intros c Hc. unfold flag_char, is_some_of in Hc. apply existsb_exists in Hc. destruct Hc as (x & Hx & Hc).
    apply is_true in Hc. subst c. cbn in Hx. repeat (destruct Hx as [<-|Hx]; [vm_compute; tauto|]). destruct Hx.
Qed.
Lemma chars_item (anchored : bool) t y : Utf8 t ->
  chars (((if anchored then B "^" else []) ++ grouped t ++ (if anchored then B "$" else [])) ++ y) = item anchored (chars t) ++ chars y.
Proof.
  intros H. unfold grouped, item. rewrite <- !app_assoc.
  destruct anchored.
  - transitivity (bN "^" :: bN "(" :: bN "?" :: bN ":" :: chars (t ++ B ")" ++ B "$" ++ y)); [reflexivity|]. rewrite chars_app by auto. cbn [app]; rewrite <- app_assoc; reflexivity.
  - transitivity (bN "(" :: bN "?" :: bN ":" :: chars (t ++ B ")" ++ y)); [reflexivity|]. rewrite chars_app by auto. cbn [app]; rewrite <- app_assoc; reflexivity.
Qed.
Definition join_text (anchored : bool) (ts : list bytes) : bytes :=
  intercalate (B "|") (map (fun t => (if anchored then B "^" else []) ++ grouped t ++ (if anchored then B "$" else [])) ts).
Lemma chars_join anchored ts : Forall Utf8 ts -> chars (join_text anchored ts) = joined anchored (map chars ts).
Proof.
  unfold join_text. induction 1 as [|t ts Ht Hts IH]; [reflexivity|]. cbn [map]. destruct ts as [|t2 ts].
  - cbn [map intercalate joined]. pose proof (chars_item anchored [] Ht) as E. rewrite !app_nil_r in E. exact E.
  - cbn [map] in *. set (l := map _ ts) in *.
    assert (forall a b l, intercalate (B "|") (a :: b :: l) = a ++ B "|" ++ intercalate (B "|") (b :: l)) as Ei by reflexivity. rewrite Ei.
    rewrite chars_item by auto. cbn [joined]. f_equal. transitivity (bN "|" :: chars (intercalate (B "|") ((((if anchored then B "^" else []) ++ grouped t2 ++ (if anchored then B "$" else []))) :: l))); [reflexivity|].
    f_equal. exact IH.
Qed.
Lemma allow_join ts : allow_text ts = join_text true ts.
Proof. reflexivity. Qed.
Lemma mine_join ts : mine_text ts = join_text false ts.
Proof. unfold mine_text, join_text. f_equal. apply map_ext. intros t. cbn [app]. rewrite app_nil_r. reflexivity. Qed.
