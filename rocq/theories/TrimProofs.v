(** [str::trim] and the removal of line breaks, on the bytes and on the characters. *)
From Coq Require Import ZifyBool ZifyNat ZifyN.
From Verif Require Import Base BaseProofs F64 Utf8 SpecUtf8 Utf8Proofs Cli SpecCli.
Set Implicit Arguments.
Local Open Scope list_scope.
Ltac Zify.zify_post_hook ::= Z.div_mod_to_equations.
Notation length := List.length (only parsing).

Lemma cons_bN (x y : byte) l l' : x :: l = y :: l' -> bN x = bN y /\ l = l'.
Proof. intros E. injection E as -> ->. auto. Qed.
Lemma digits_64 a b : (a / 64 = b / 64 -> a mod 64 = b mod 64 -> a = b)%N.
Proof. lia. Qed.
Lemma div_64_64 a : (a / 4096 = a / 64 / 64)%N.
Proof. now rewrite N.div_div. Qed.
Lemma div_64_64_64 a : (a / 262144 = a / 64 / 64 / 64)%N.
Proof. now rewrite !N.div_div. Qed.
Lemma encode_char_inj c d : scalar c -> scalar d -> encode_char c = encode_char d -> c = d.
Proof.
  intros Hc Hd E. assert (HL := f_equal (@List.length byte) E). revert E HL. unfold encode_char, scalar in *.
  destruct (N.ltb_spec c 0x80), (N.ltb_spec d 0x80); try (destruct (N.ltb_spec c 0x800)); try (destruct (N.ltb_spec d 0x800)); try (destruct (N.ltb_spec c 0x10000)); try (destruct (N.ltb_spec d 0x10000)); try (intros _; discriminate);
    intros E _; repeat (apply cons_bN in E as [?E E]); rewrite !bN_byte_of_N in * by lia; repeat match goal with H : (?k + ?x = ?k + ?y)%N |- _ => apply N.add_cancel_l in H end;
    rewrite ?div_64_64, ?div_64_64_64 in *; auto using digits_64.
Qed.

(** A leading byte, then continuation bytes. *)
Lemma encode_char_shape c : scalar c -> exists b bs, encode_char c = b :: bs /\ (bN b < 0x80 \/ 0xC0 <= bN b)%N /\ Forall (fun b => (0x80 <= bN b < 0xC0)%N) bs.
Proof.
  intros Hc. unfold encode_char, scalar in *. destruct (N.ltb_spec c 0x80); [|destruct (N.ltb_spec c 0x800); [|destruct (N.ltb_spec c 0x10000)]];
    do 2 eexists; (split; [reflexivity|]); (split; [rewrite bN_byte_of_N by (lia); lia|]); repeat constructor; rewrite ?bN_byte_of_N by (lia); lia.
Qed.
Lemma encode_char_high c : scalar c -> (0x80 <= c)%N -> Forall (fun b => (0x80 <= bN b)%N) (encode_char c).
Proof.
  intros Hc H. unfold encode_char, scalar in *. destruct (N.ltb_spec c 0x80); [lia|destruct (N.ltb_spec c 0x800); [|destruct (N.ltb_spec c 0x10000)]];
    repeat constructor; rewrite ?bN_byte_of_N by (lia); lia.
Qed.
(** Characters can be read off from the end. *)
Lemma encode_char_suffix c d r r' : scalar c -> scalar d -> r ++ encode_char c = r' ++ encode_char d -> c = d /\ r = r'.
Proof.
  intros Hc Hd E. destruct (encode_char_shape Hc) as (b & bs & Eb & Hb & Hbs). destruct (encode_char_shape Hd) as (b' & bs' & Eb' & Hb' & Hbs').
  assert (HX : forall (x y : bytes) u us v vs, x ++ u :: us = y ++ v :: vs -> length us < length vs -> In u vs).
  { intros x y u us v vs H HL. apply (f_equal (@rev byte)) in H. rewrite !rev_app_distr in H. simpl in H. rewrite <- !app_assoc in H. simpl in H.
    apply (f_equal (fun l => nth_error l (length us))) in H. rewrite nth_error_app2 in H by (rewrite rev_length; lia). rewrite rev_length, Nat.sub_diag in H. simpl in H.
    rewrite nth_error_app1 in H by (rewrite rev_length; lia). symmetry in H. apply nth_error_In in H. now apply in_rev. }
  assert (HL : length bs = length bs').
  { destruct (Nat.lt_total (length bs) (length bs')) as [H|[H|H]]; [exfalso|exact H|exfalso]; rewrite Eb, Eb' in E.
    - apply (HX _ _ _ _ _ _ E) in H. rewrite Forall_forall in Hbs'. apply Hbs' in H. lia.
    - symmetry in E. apply (HX _ _ _ _ _ _ E) in H. rewrite Forall_forall in Hbs. apply Hbs in H. lia. }
  assert (HR : length r = length r') by (apply (f_equal (@List.length byte)) in E; rewrite !app_length, Eb, Eb' in E; simpl in E; lia).
  assert (E1 : r = r') by (apply (f_equal (firstn (length r))) in E; rewrite firstn_app, Nat.sub_diag, firstn_all, app_nil_r in E; simpl in E; rewrite HR, firstn_app, Nat.sub_diag, firstn_all in E; simpl in E; rewrite app_nil_r in E; exact E).
  split; [|exact E1]. subst r'. apply app_inv_head in E. now apply encode_char_inj.
Qed.

(** ** White space *)
Definition whites : list N :=
  [9; 10; 11; 12; 13; 0x20; 0x85; 0xA0; 0x1680; 0x2000; 0x2001; 0x2002; 0x2003; 0x2004; 0x2005; 0x2006; 0x2007; 0x2008; 0x2009; 0x200A; 0x2028; 0x2029; 0x202F; 0x205F; 0x3000]%N.
Lemma whites_chars : whitespace_chars = map encode_char whites.
Proof. vm_compute. reflexivity. Qed.
Lemma whites_iff c : In c whites <-> white c.
Proof. unfold whites, white. simpl. split; [intuition lia|]. intros H. repeat match goal with |- _ \/ _ => idtac end. lia. Qed.
Lemma whites_scalar : Forall scalar whites.
Proof. repeat constructor; unfold scalar; lia. Qed.
Lemma white_dec c : {white c} + {~ white c}.
Proof. destruct (in_dec N.eq_dec c whites) as [H|H]; rewrite whites_iff in H; auto. Qed.

Lemma find_char ws c s : scalar c -> Forall scalar ws ->
  find_prefix (map encode_char ws) (encode_char c ++ s) = if in_dec N.eq_dec c ws then Some (length (encode_char c)) else None.
Proof.
  intros Hc H. induction H as [|w ws Hw _ IH]; [reflexivity|]. cbn [map find_prefix]. destruct (starts_with_spec (encode_char c ++ s) (encode_char w)) as [[r E]|HN].
  - apply encode_char_prefix in E as [E _]; [|assumption..]. destruct (in_dec N.eq_dec c (w :: ws)) as [_|Hn]; [now rewrite E|]. exfalso. apply Hn. left. symmetry. now apply encode_char_inj.
  - rewrite IH. destruct (in_dec N.eq_dec c ws) as [H|H], (in_dec N.eq_dec c (w :: ws)) as [H'|H']; try reflexivity.
    + exfalso. apply H'. now right.
    + destruct H' as [->|H']; [|contradiction]. exfalso. apply HN. now exists s.
Qed.
Lemma find_last ws c s : scalar c -> Forall scalar ws ->
  find_prefix (map (@rev byte) (map encode_char ws)) (rev (encode_char c) ++ s) = if in_dec N.eq_dec c ws then Some (length (encode_char c)) else None.
Proof.
  intros Hc H. induction H as [|w ws Hw _ IH]; [reflexivity|]. cbn [map find_prefix]. destruct (starts_with_spec (rev (encode_char c) ++ s) (rev (encode_char w))) as [[r E]|HN].
  - apply (f_equal (@rev byte)) in E. rewrite !rev_app_distr, !rev_involutive in E. apply encode_char_suffix in E as [<- _]; [|assumption..]. destruct (in_dec N.eq_dec c (c :: ws)) as [_|Hn]; [now rewrite rev_length|]. exfalso. apply Hn. now left.
  - rewrite IH. destruct (in_dec N.eq_dec c ws) as [H|H], (in_dec N.eq_dec c (w :: ws)) as [H'|H']; try reflexivity.
    + exfalso. apply H'. now right.
    + destruct H' as [->|H']; [|contradiction]. exfalso. apply HN. now exists s.
Qed.

Lemma strip_front cs rest : Forall scalar (cs ++ rest) -> Forall white cs -> (forall c r, rest = c :: r -> ~ white c) ->
  strip whitespace_chars (encode_string (cs ++ rest)) = encode_string rest.
Proof.
  intros HS HW HR. unfold strip. assert (HF : length (encode_string (cs ++ rest)) <= length (encode_string (cs ++ rest))) by lia. revert HF. generalize (length (encode_string (cs ++ rest))) at 2 3. intros fuel. revert cs HS HW.
  induction fuel as [|fuel IH]; intros cs HS HW HF.
  - destruct cs as [|c cs]; [reflexivity|]. exfalso. assert (Hl := encode_char_length c). unfold encode_string in HF. simpl in HF. rewrite app_length in HF. lia.
  - cbn [strip_fuel]. rewrite whites_chars. destruct cs as [|c cs].
    + cbn [app]. destruct rest as [|c rest]; [reflexivity|]. inversion HS; subst. change (encode_string (c :: rest)) with (encode_char c ++ encode_string rest).
      rewrite find_char by (auto using whites_scalar). destruct (in_dec N.eq_dec c whites) as [Hi|_]; [|reflexivity]. apply whites_iff in Hi. exfalso. exact (HR _ _ eq_refl Hi).
    + inversion HS; subst. inversion HW; subst. change (encode_string ((c :: cs) ++ rest)) with (encode_char c ++ encode_string (cs ++ rest)) in *.
      rewrite find_char by (auto using whites_scalar). destruct (in_dec N.eq_dec c whites) as [_|Hi]; [|exfalso; apply Hi; now apply whites_iff].
      rewrite skipn_app, Nat.sub_diag, skipn_all. cbn [app skipn]. rewrite <- whites_chars. apply IH; auto. rewrite app_length in HF. assert (Hl := encode_char_length c). lia.
Qed.
Lemma encode_string_app a b : encode_string (a ++ b) = encode_string a ++ encode_string b.
Proof. unfold encode_string. now rewrite map_app, concat_app. Qed.
Lemma strip_back cs rest : Forall scalar (rest ++ cs) -> Forall white cs -> (forall c r, rest = r ++ [c] -> ~ white c) ->
  rev (strip (map (@rev byte) whitespace_chars) (rev (encode_string (rest ++ cs)))) = encode_string rest.
Proof.
  intros HS HW HR. unfold strip. assert (HF : length (rev (encode_string (rest ++ cs))) <= length (rev (encode_string (rest ++ cs)))) by lia. revert HF. generalize (length (rev (encode_string (rest ++ cs)))) at 2 3. intros fuel. revert HS HW. revert fuel.
  induction cs as [|c cs IH] using rev_ind; intros fuel HS HW HF.
  - rewrite app_nil_r in *. destruct fuel as [|fuel]; [apply rev_involutive|]. cbn [strip_fuel]. rewrite whites_chars. destruct rest as [|c rest _] using rev_ind; [reflexivity|].
    apply Forall_app in HS as [_ Hc]. inversion Hc; subst. rewrite encode_string_app. replace (encode_string [c]) with (encode_char c) by (unfold encode_string; simpl; now rewrite app_nil_r). rewrite rev_app_distr.
    rewrite find_last by (auto using whites_scalar). destruct (in_dec N.eq_dec c whites) as [Hi|_]; [|now rewrite rev_app_distr, !rev_involutive]. apply whites_iff in Hi. exfalso. exact (HR _ _ eq_refl Hi).
  - apply Forall_app in HW as [HW Hw]. inversion Hw; subst. rewrite app_assoc in *. assert (HS0 := HS). apply Forall_app in HS as [HS Hc]. inversion Hc; subst. rewrite (encode_string_app (rest ++ cs)) in HF |- *.
    replace (encode_string [c]) with (encode_char c) in HF |- * by (unfold encode_string; simpl; now rewrite app_nil_r). rewrite (rev_app_distr (encode_string (rest ++ cs))) in HF |- *. assert (Hl := encode_char_length c). rewrite app_length, (rev_length (encode_char c)) in HF.
    destruct fuel as [|fuel]; [lia|]. cbn [strip_fuel]. rewrite whites_chars. rewrite find_last by (auto using whites_scalar). destruct (in_dec N.eq_dec c whites) as [_|Hi]; [|exfalso; apply Hi; now apply whites_iff].
    rewrite skipn_app, rev_length, Nat.sub_diag. rewrite <- (rev_length (encode_char c)), skipn_all. cbn [app skipn]. rewrite <- whites_chars. apply IH; auto. lia.
Qed.

Lemma white_front cs : exists before rest, cs = before ++ rest /\ Forall white before /\ (forall c r, rest = c :: r -> ~ white c).
Proof.
  induction cs as [|c cs (before & rest & -> & HW & HR)]; [exists [], []; repeat split; [constructor|discriminate]|]. destruct (white_dec c) as [H|H].
  - exists (c :: before), rest. repeat split; auto.
  - exists [], (c :: before ++ rest). repeat split; [constructor|]. intros c' r E. now injection E as -> _.
Qed.
Lemma white_back cs : exists rest after, cs = rest ++ after /\ Forall white after /\ (forall c r, rest = r ++ [c] -> ~ white c).
Proof.
  destruct (white_front (rev cs)) as (before & rest & E & HW & HR). exists (rev rest), (rev before). repeat split.
  - now rewrite <- rev_app_distr, <- E, rev_involutive.
  - now apply Forall_rev.
  - intros c r Er. apply (f_equal (@rev N)) in Er. rewrite rev_involutive, rev_app_distr in Er. exact (HR _ _ Er).
Qed.
Lemma trim_chars before kept after : Forall scalar (before ++ kept ++ after) -> Forall white before -> Forall white after ->
  (forall c cs', kept = c :: cs' -> ~ white c) -> (forall c cs', kept = cs' ++ [c] -> ~ white c) -> trim (encode_string (before ++ kept ++ after)) = encode_string kept.
Proof.
  intros HS H1 H2 H3 H4. unfold trim. destruct kept as [|c kept].
  - cbn [app] in *. rewrite <- (app_nil_r (before ++ after)) in *. rewrite strip_front; [reflexivity|exact HS|apply Forall_app; auto|discriminate].
  - rewrite strip_front; [|exact HS|exact H1|intros ? ? E; injection E as <- <-; now apply (H3 _ kept)]. apply Forall_app in HS as [_ HS]. now apply strip_back.
Qed.

Lemma Forall_filter {A} (P : A -> Prop) f l : Forall P l -> Forall P (filter f l).
Proof. intros H. apply Forall_forall. intros x Hx. apply filter_In in Hx as [Hx _]. rewrite Forall_forall in H. auto. Qed.
Lemma no_breaks_chars cs : Forall scalar cs -> filter (fun b => negb (Byte.eqb b x0a || Byte.eqb b x0d)) (encode_string cs) =
  encode_string (filter (fun c => negb ((c =? 0x0A) || (c =? 0x0D)))%N cs).
Proof.
  induction 1 as [|c cs Hc _ IH]; [reflexivity|]. change (encode_string (c :: cs)) with (encode_char c ++ encode_string cs). rewrite filter_app, IH. cbn [filter]. clear IH.
  assert (HE : filter (fun b => negb (Byte.eqb b x0a || Byte.eqb b x0d)) (encode_char c) = if negb ((c =? 0x0A) || (c =? 0x0D))%N then encode_char c else []).
  { destruct (N.lt_ge_cases c 0x80) as [Hlt|Hge].
    - unfold encode_char. replace (c <? 0x80)%N with true by lia. cbn [filter].
      assert (E : forall b, Byte.eqb (byte_of_N c) b = (c =? bN b)%N).
      { intros b. destruct (N.eqb_spec c (bN b)) as [->|Hn]; [rewrite byte_of_N_bN; apply Byte.byte_dec_lb; reflexivity|]. apply not_true_iff_false. intros E. apply Byte.byte_dec_bl in E. apply Hn. rewrite <- E, bN_byte_of_N; lia. }
      rewrite !E. reflexivity.
    - replace ((c =? 10) || (c =? 13))%N with false by lia. cbn [negb]. generalize (encode_char_high Hc Hge). clear. generalize (encode_char c). induction 1 as [|b bs Hb _ IH]; [reflexivity|]. cbn [filter].
      assert (E : forall b', (bN b' < 0x80)%N -> Byte.eqb b b' = false) by (intros b' Hb'; apply not_true_iff_false; intros E; apply Byte.byte_dec_bl in E; subst; lia).
      rewrite !E by (vm_compute; reflexivity). cbn [orb negb]. now rewrite IH. }
  rewrite HE. destruct (negb _); reflexivity.
Qed.

Lemma regex_file_ok fs path text : regex_file fs path = Ok text <-> exists contents, fs path = Some contents /\ Expression contents text.
Proof.
  unfold regex_file, read_text. destruct (fs path) as [contents|]; cbn [some bind]; [|split; [discriminate|intros (? & E & _); discriminate]].
  destruct (utf8_ok contents) eqn:EU; cbn [bind].
  - apply utf8_ok_spec in EU as (cs & Hcs & ->). rewrite no_breaks_chars by exact Hcs. split.
    + intros E. injection E as <-. exists (encode_string cs). split; [reflexivity|]. destruct (white_front (filter (fun c => negb ((c =? 0x0A) || (c =? 0x0D)))%N cs)) as (before & rest & E & HW & HR).
      destruct (white_back rest) as (kept & after & -> & HA & HK).
      assert (HK' : forall c r, kept = c :: r -> ~ white c) by (intros c r ->; apply (HR _ (r ++ after)); reflexivity).
      exists cs, before, kept, after. repeat (split; [assumption || reflexivity|]). split; [|auto]. rewrite E. apply trim_chars; auto. rewrite <- E. now apply Forall_filter.
    + intros (contents & E & cs' & before & kept & after & Hcs' & E' & Ef & -> & HB & HA & H1 & H2). injection E as <-. f_equal.
      assert (cs = cs') as <-.
      { clear - Hcs Hcs' E'. revert cs' Hcs' E'. induction Hcs as [|c cs Hc _ IH]; intros cs' Hcs' E.
        - destruct cs' as [|c' cs']; [reflexivity|]. apply (f_equal (@List.length byte)) in E. unfold encode_string in E. simpl in E. rewrite app_length in E. assert (Hl := encode_char_length c'). lia.
        - destruct Hcs' as [|c' cs' Hc' Hcs']; [apply (f_equal (@List.length byte)) in E; unfold encode_string in E; simpl in E; rewrite app_length in E; assert (Hl := encode_char_length c); lia|].
          change (encode_char c ++ encode_string cs = encode_char c' ++ encode_string cs') in E. apply encode_char_prefix in E as [E1 E2]; auto. f_equal; [now apply encode_char_inj|auto]. }
      rewrite Ef. apply trim_chars; auto. rewrite <- Ef. now apply Forall_filter.
  - split; [discriminate|]. intros (c' & E & cs' & ? & ? & ? & Hcs' & E' & _). injection E as <-. exfalso. apply not_true_iff_false in EU. apply EU. apply utf8_ok_spec. now exists cs'.
Qed.
