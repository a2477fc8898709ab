(** The JSON parser accepts exactly the texts of the grammar, the writer writes texts of the grammar. *)
From Verif Require Import Base BaseProofs F64 Utf8 SpecUtf8 Utf8Proofs SpecJson Base64Proofs Json.
Set Implicit Arguments.

(** ** White space *)
Definition ws_byte (b : byte) : Prop := b = x20 \/ b = x0a \/ b = x0d \/ b = x09.
Lemma is_ws_iff b : is_ws b = true <-> ws_byte b.
Proof.
  unfold ws_byte. split.
  - destruct b; simpl; intros H; try discriminate; auto.
  - now intros [->|[->|[->| ->]]].
Qed.

Lemma skip_ws_spec s : exists w, s = w ++ skip_ws s /\ Ws w /\
  (skip_ws s = [] \/ exists b r, skip_ws s = b :: r /\ is_ws b = false).
Proof.
  induction s as [|b s (w & E & Hw & Hc)]; simpl.
  - exists []. repeat split; auto. constructor.
  - destruct (is_ws b) eqn:Eb.
    + exists (b :: w). split; [simpl; now f_equal|]. split; [constructor; [now apply is_ws_iff|exact Hw]|exact Hc].
    + exists []. split; [reflexivity|]. split; [constructor|]. right. eauto.
Qed.

Lemma skip_ws_app w r : Ws w -> skip_ws (w ++ r) = skip_ws r.
Proof. induction 1 as [|b w Hb Hw IH]; [reflexivity|]. simpl. now rewrite (proj2 (is_ws_iff b) Hb). Qed.

Lemma skip_ws_stop b r : is_ws b = false -> skip_ws (b :: r) = b :: r.
Proof. intros H. simpl. now rewrite H. Qed.

Lemma Ws_app a b : Ws a -> Ws b -> Ws (a ++ b).
Proof. intros. now apply Forall_app. Qed.

(** ** Strings *)
Lemma hex_val_iff b n : hex_val b = Some n <-> hex_digit b n.
Proof.
  split.
  - destruct b; cbv; intros H; try discriminate; injection H as <-; (split; [reflexivity|]); auto.
  - intros [Hn H].
    assert (E := forall_below 16 (fun n => match nth_error (B "0123456789abcdef") (N.to_nat n), nth_error (B "0123456789ABCDEF") (N.to_nat n) with
       | Some c, Some c' => match hex_val c, hex_val c' with Some m, Some m' => N.eqb m n && N.eqb m' n | _, _ => false end | _, _ => false end) eq_refl Hn).
    cbv beta in E.
    destruct (nth_error (B "0123456789abcdef") (N.to_nat n)) as [c|]; [|discriminate].
    destruct (nth_error (B "0123456789ABCDEF") (N.to_nat n)) as [c'|]; [|discriminate].
    destruct (hex_val c) as [m|] eqn:Em; [|discriminate]. destruct (hex_val c') as [m'|] eqn:Em'; [|discriminate].
    apply andb_true_iff in E as [E1 E2]. apply N.eqb_eq in E1, E2. subst. destruct H as [[= ->]|[= ->]]; assumption.
Qed.

Lemma hex4_iff a b c d n : hex4 a b c d = Some n <-> Hex4 [a; b; c; d] n.
Proof.
  unfold hex4, Hex4. split.
  - destruct (hex_val a) as [x|] eqn:Ea; [|discriminate]. destruct (hex_val b) as [y|] eqn:Eb; [|discriminate].
    destruct (hex_val c) as [z|] eqn:Ec; [|discriminate]. destruct (hex_val d) as [w|] eqn:Ed; [|discriminate]. intros [= <-].
    apply hex_val_iff in Ea, Eb, Ec, Ed. exists a, b, c, d, x, y, z, w. auto 10.
  - intros (c0 & c1 & c2 & c3 & n0 & n1 & n2 & n3 & [= <- <- <- <-] & H0 & H1 & H2 & H3 & ->).
    apply hex_val_iff in H0, H1, H2, H3. now rewrite H0, H1, H2, H3.
Qed.

Lemma Hex4_bound cs n : Hex4 cs n -> (n < 65536)%N.
Proof. intros (c0 & c1 & c2 & c3 & n0 & n1 & n2 & n3 & _ & [H0 _] & [H1 _] & [H2 _] & [H3 _] & ->). lia. Qed.

Lemma unescape_iff c b : unescape c = Some b <-> short_escape c b.
Proof.
  unfold short_escape. split.
  - destruct c; simpl; intros H; try discriminate; injection H as <-; auto 10.
  - simpl. intros H. repeat (destruct H as [[= <- <-]|H]; [reflexivity|]). contradiction.
Qed.

Lemma Hex4_shape h n : Hex4 h n -> exists a b c d, h = [a; b; c; d].
Proof. intros (c0 & c1 & c2 & c3 & n0 & n1 & n2 & n3 & -> & _). eauto. Qed.

Lemma parse_str_complete src p t : Chars src p t -> forall r, parse_str (src ++ x22 :: r) = Some (p, t, r).
Proof.
  induction 1 as [|b src p s Hb Hq Hs HC IH|c b src p s Hc HC IH|h n src p s Hh Hn HC IH|h1 n1 h2 n2 src p s Hh1 Hh2 H1 H2 HC IH]; intros r.
  - reflexivity.
  - cbn [app parse_str]. destruct (byte_eqb_spec b x22); [contradiction|]. destruct (byte_eqb_spec b x5c); [contradiction|].
    unfold bN. replace (Byte.to_N b <? 0x20)%N with false by lia. now rewrite IH.
  - apply unescape_iff in Hc. cbn [app parse_str]. change (Byte.eqb x5c x22) with false. change (Byte.eqb x5c x5c) with true. cbv iota.
    destruct (byte_eqb_spec c x75) as [->|]; [discriminate|]. now rewrite Hc, IH.
  - destruct (Hex4_shape Hh) as (a & b & c & d & ->). apply hex4_iff in Hh. cbn [app parse_str].
    change (Byte.eqb x5c x22) with false. change (Byte.eqb x5c x5c) with true. change (Byte.eqb x75 x75) with true. cbv iota.
    rewrite Hh. unfold scalar in Hn.
    assert (Hb : (n < 65536)%N) by (apply hex4_iff in Hh; exact (Hex4_bound Hh)).
    replace ((0xDC00 <=? n) && (n <=? 0xDFFF))%N with false by lia.
    replace ((n <? 0xD800) || (0xDBFF <? n))%N with true by lia. now rewrite IH.
  - destruct (Hex4_shape Hh1) as (a & b & c & d & ->). destruct (Hex4_shape Hh2) as (a' & b' & c' & d' & ->).
    apply hex4_iff in Hh1, Hh2. cbn [app parse_str].
    change (Byte.eqb x5c x22) with false. change (Byte.eqb x5c x5c) with true. change (Byte.eqb x75 x75) with true. cbv iota.
    rewrite Hh1. replace ((0xDC00 <=? n1) && (n1 <=? 0xDFFF))%N with false by lia.
    replace ((n1 <? 0xD800) || (0xDBFF <? n1))%N with false by lia. cbn [andb]. rewrite Hh2.
    replace ((n2 <? 0xDC00) || (0xDFFF <? n2))%N with false by lia. now rewrite IH.
Qed.

Lemma some3 {X Y Z} (a a' : X) (b b' : Y) (c c' : Z) : Some (a, b, c) = Some (a', b', c') -> a = a' /\ b = b' /\ c = c'.
Proof. now intros [= -> -> ->]. Qed.

Lemma parse_str_sound n : forall s p t r, length s <= n -> parse_str s = Some (p, t, r) ->
  exists src, s = src ++ x22 :: r /\ Chars src p t.
Proof.
  induction n as [|n IH]; intros s p t r Hl H.
  { destruct s; [discriminate|simpl in Hl; lia]. }
  destruct s as [|b s]; [discriminate|]. simpl in Hl. cbn [parse_str] in H.
  destruct (byte_eqb_spec b x22) as [->|Hq]. { apply some3 in H as (<- & <- & <-). exists []. split; [reflexivity|constructor]. }
  destruct (byte_eqb_spec b x5c) as [->|Hs].
  - destruct s as [|c s]; [discriminate|]. simpl in Hl. destruct (byte_eqb_spec c x75) as [->|Hu].
    + destruct s as [|h0 [|h1 [|h2 [|h3 s]]]]; try discriminate. simpl in Hl.
      destruct (hex4 h0 h1 h2 h3) as [m|] eqn:Em; [|discriminate]. apply hex4_iff in Em. assert (Hm := Hex4_bound Em).
      destruct ((0xDC00 <=? m) && (m <=? 0xDFFF))%N eqn:E1; [discriminate|].
      destruct ((m <? 0xD800) || (0xDBFF <? m))%N eqn:E2.
      * destruct (parse_str s) as [[[p' t'] r']|] eqn:Ep; [|discriminate]. apply some3 in H as (<- & <- & <-).
        apply IH in Ep as (src & -> & HC); [|lia]. exists (x5c :: x75 :: [h0; h1; h2; h3] ++ src). split; [reflexivity|].
        apply Chars_u with (p := p'); [exact Em|unfold scalar; lia|exact HC].
      * destruct s as [|b2 [|c2 [|g0 [|g1 [|g2 [|g3 s]]]]]]; try discriminate. simpl in Hl.
        destruct (byte_eqb_spec b2 x5c) as [->|]; [|discriminate]. destruct (byte_eqb_spec c2 x75) as [->|]; [|discriminate].
        cbn [andb] in H. destruct (hex4 g0 g1 g2 g3) as [m2|] eqn:Em2; [|discriminate]. apply hex4_iff in Em2.
        destruct ((m2 <? 0xDC00) || (0xDFFF <? m2))%N eqn:E3; [discriminate|].
        destruct (parse_str s) as [[[p' t'] r']|] eqn:Ep; [|discriminate]. apply some3 in H as (<- & <- & <-).
        apply IH in Ep as (src & -> & HC); [|lia].
        exists (x5c :: x75 :: [h0; h1; h2; h3] ++ x5c :: x75 :: [g0; g1; g2; g3] ++ src). split; [reflexivity|].
        apply Chars_pair with (p := p'); [exact Em|exact Em2|lia|lia|exact HC].
    + destruct (unescape c) as [b'|] eqn:Eu; [|discriminate]. apply unescape_iff in Eu.
      destruct (parse_str s) as [[[p' t'] r']|] eqn:Ep; [|discriminate]. apply some3 in H as (<- & <- & <-).
      apply IH in Ep as (src & -> & HC); [|lia]. exists (x5c :: c :: src). split; [reflexivity|]. now apply Chars_short with (p := p').
  - destruct (bN b <? 0x20)%N eqn:Eb; [discriminate|]. destruct (parse_str s) as [[[p' t'] r']|] eqn:Ep; [|discriminate].
    apply some3 in H as (<- & <- & <-). apply IH in Ep as (src & -> & HC); [|lia]. exists (b :: src). split; [reflexivity|].
    constructor; auto. unfold bN in Eb. lia.
Qed.

(** ** Numbers *)
Lemma is_digit_iff b : is_digit b = true <-> digit b.
Proof. unfold is_digit, digit, in_range, bN. lia. Qed.

(** What may follow a number. *)
Definition stop (r : bytes) : Prop :=
  match r with [] => True | b :: _ => is_digit b = false /\ b <> x2e /\ b <> x65 /\ b <> x45 end.

Lemma span_digits_sound s ds r : span_digits s = (ds, r) ->
  s = ds ++ r /\ Forall digit ds /\ match r with [] => True | b :: _ => is_digit b = false end.
Proof.
  revert ds r. induction s as [|b s IH]; simpl; intros ds r H.
  - injection H as <- <-. repeat split; constructor.
  - destruct (is_digit b) eqn:E.
    + destruct (span_digits s) as [ds' r'] eqn:Es. injection H as <- <-. destruct (IH _ _ eq_refl) as (-> & Hd & Hr).
      repeat split; [|exact Hr]. constructor; [now apply is_digit_iff|exact Hd].
    + injection H as <- <-. repeat split; [constructor|exact E].
Qed.

Lemma span_digits_complete ds r : Forall digit ds -> match r with [] => True | b :: _ => is_digit b = false end ->
  span_digits (ds ++ r) = (ds, r).
Proof.
  intros Hd Hr. induction Hd as [|b ds Hb Hd IH]; simpl.
  - destruct r as [|b r]; [reflexivity|]. simpl. now rewrite Hr.
  - apply is_digit_iff in Hb. now rewrite Hb, IH.
Qed.

Definition Int (ip : bytes) : Prop := ip = [x30] \/ Digits ip /\ exists d ds, ip = d :: ds /\ d <> x30.
Definition Frac (fp : bytes) : Prop := fp = [] \/ exists ds, fp = x2e :: ds /\ Digits ds.
Definition Expo (ep : bytes) : Prop := ep = [] \/ exists e s ds, ep = e :: s ++ ds /\ (e = x65 \/ e = x45) /\ (s = [] \/ s = [x2b] \/ s = [x2d]) /\ Digits ds.

Lemma scan_int_sound s ip r : scan_int s = Some (ip, r) -> s = ip ++ r /\ Int ip.
Proof.
  destruct s as [|b s]; [discriminate|]. simpl. destruct (byte_eqb_spec b x30) as [->|Hb].
  - destruct s as [|c s]; [intros [= <- <-]; split; [reflexivity|now left]|].
    destruct (is_digit c); [discriminate|]. intros [= <- <-]. split; [reflexivity|now left].
  - destruct (is_digit b) eqn:E; [|discriminate]. destruct (span_digits s) as [ds r'] eqn:Es. intros [= <- <-].
    apply span_digits_sound in Es as (-> & Hd & _). split; [reflexivity|]. right. split; [|eauto].
    split; [discriminate|]. constructor; [now apply is_digit_iff|exact Hd].
Qed.

Lemma scan_int_complete ip r : Int ip -> match r with [] => True | b :: _ => is_digit b = false end -> scan_int (ip ++ r) = Some (ip, r).
Proof.
  intros [->|[[_ Hd] (d & ds & -> & Hn)]] Hr.
  - simpl. destruct r as [|b r]; [reflexivity|]. now rewrite Hr.
  - simpl. destruct (byte_eqb_spec d x30); [contradiction|]. inversion Hd as [|? ? Hd0 Hds]; subst. apply is_digit_iff in Hd0. rewrite Hd0.
    now rewrite span_digits_complete.
Qed.

Lemma scan_frac_sound s fp r : scan_frac s = Some (fp, r) -> s = fp ++ r /\ Frac fp.
Proof.
  destruct s as [|b s]; [intros [= <- <-]; split; [reflexivity|now left]|]. simpl. destruct (byte_eqb_spec b x2e) as [->|Hb].
  - destruct (span_digits s) as [ds r'] eqn:Es. apply span_digits_sound in Es as (-> & Hd & _).
    destruct ds as [|d ds]; [discriminate|]. intros [= <- <-]. split; [reflexivity|]. right. eexists. split; [reflexivity|]. split; [discriminate|exact Hd].
  - intros [= <- <-]. split; [reflexivity|now left].
Qed.

Lemma scan_frac_complete fp r : Frac fp -> match r with [] => True | b :: _ => is_digit b = false /\ b <> x2e end ->
  scan_frac (fp ++ r) = Some (fp, r).
Proof.
  intros [->|(ds & -> & Hn & Hd)] Hr.
  - simpl. destruct r as [|b r]; [reflexivity|]. destruct Hr as [_ Hr]. simpl. now destruct (byte_eqb_spec b x2e).
  - cbn [app scan_frac]. change (Byte.eqb x2e x2e) with true. cbv iota. rewrite span_digits_complete; [|exact Hd|destruct r; tauto].
    now destruct ds.
Qed.

Lemma scan_exp_sound s ep r : scan_exp s = Some (ep, r) -> s = ep ++ r /\ Expo ep.
Proof.
  destruct s as [|b s]; [intros [= <- <-]; split; [reflexivity|now left]|]. cbn [scan_exp].
  destruct (Byte.eqb b x65 || Byte.eqb b x45) eqn:Eb.
  - assert (Hb : b = x65 \/ b = x45).
    { apply orb_true_iff in Eb as [E|E]; [left; now destruct (byte_eqb_spec b x65)|right; now destruct (byte_eqb_spec b x45)]. }
    set (P := match s with c :: r1 => if Byte.eqb c x2b || Byte.eqb c x2d then ([c], r1) else ([], s) | [] => ([], []) end).
    assert (HP : s = fst P ++ snd P /\ (fst P = [] \/ fst P = [x2b] \/ fst P = [x2d])).
    { unfold P. destruct s as [|c s']; [auto|]. destruct (byte_eqb_spec c x2b) as [->|]; [simpl; auto|].
      destruct (byte_eqb_spec c x2d) as [->|]; simpl; auto. }
    destruct P as [sg r1]. simpl in HP. destruct HP as [-> Hsg].
    destruct (span_digits r1) as [ds r'] eqn:Es. apply span_digits_sound in Es as (-> & Hd & _).
    destruct ds as [|d ds]; [discriminate|]. intros [= <- <-]. split; [simpl; now rewrite <- app_assoc|]. right.
    exists b, sg, (d :: ds). repeat split; auto; discriminate.
  - intros [= <- <-]. split; [reflexivity|now left].
Qed.

Lemma scan_exp_complete ep r : Expo ep -> stop r -> scan_exp (ep ++ r) = Some (ep, r).
Proof.
  intros [->|(e & s & ds & -> & He & Hs & Hn & Hd)] Hr.
  - simpl. destruct r as [|b r]; [reflexivity|]. destruct Hr as (_ & _ & H1 & H2). simpl.
    destruct (byte_eqb_spec b x65); [contradiction|]. now destruct (byte_eqb_spec b x45).
  - cbn [app scan_exp]. replace (Byte.eqb e x65 || Byte.eqb e x45) with true by (destruct He as [->| ->]; reflexivity).
    rewrite <- app_assoc. destruct Hd as [|d ds Hd0 Hds]; [congruence|].
    assert (Hdig := proj2 (is_digit_iff d) Hd0).
    assert (E : match s ++ (d :: ds) ++ r with c :: r1 => if Byte.eqb c x2b || Byte.eqb c x2d then ([c], r1) else ([], s ++ (d :: ds) ++ r) | [] => ([], []) end = (s, (d :: ds) ++ r)).
    { destruct Hs as [->|[->| ->]]; simpl; try reflexivity. destruct d; try discriminate Hdig; reflexivity. }
    rewrite E. rewrite span_digits_complete; [reflexivity|now constructor|]. destruct r; [exact I|apply Hr].
Qed.

Lemma scan_number_sound s tok r : scan_number s = Some (tok, r) -> s = tok ++ r /\ Number tok.
Proof.
  unfold scan_number.
  set (P := match s with b :: r => if Byte.eqb b x2d then ([x2d], r) else ([], s) | [] => ([], []) end).
  assert (HP : s = fst P ++ snd P /\ (fst P = [] \/ fst P = [x2d])).
  { unfold P. destruct s as [|c s']; [auto|]. destruct (byte_eqb_spec c x2d) as [->|]; simpl; auto. }
  destruct P as [sg s1]. simpl in HP. destruct HP as [-> Hsg].
  destruct (scan_int s1) as [[ip s2]|] eqn:Ei; [|discriminate]. apply scan_int_sound in Ei as [-> Hi].
  destruct (scan_frac s2) as [[fp s3]|] eqn:Ef; [|discriminate]. apply scan_frac_sound in Ef as [-> Hf].
  destruct (scan_exp s3) as [[ep s4]|] eqn:Ee; [|discriminate]. apply scan_exp_sound in Ee as [-> He].
  intros [= <- <-]. split; [now rewrite <- !app_assoc|]. exists sg, ip, fp, ep. auto.
Qed.

Lemma Int_head ip : Int ip -> exists d ds, ip = d :: ds /\ digit d.
Proof.
  intros [->|[[_ Hd] (d & ds & -> & _)]].
  - exists x30, []. split; [reflexivity|]. unfold digit. simpl. lia.
  - exists d, ds. split; [reflexivity|]. now inversion Hd.
Qed.

Lemma scan_number_complete tok r : Number tok -> stop r -> scan_number (tok ++ r) = Some (tok, r).
Proof.
  intros (sg & ip & fp & ep & -> & Hsg & Hi & Hf & He) Hr. unfold scan_number. rewrite <- !app_assoc.
  destruct (Int_head Hi) as (d & ds & E & Hd). apply is_digit_iff in Hd.
  match goal with |- (let (_, _) := ?M in _) = _ => assert (EP : M = (sg, ip ++ fp ++ ep ++ r)) end.
  { destruct Hsg as [->| ->]; [|reflexivity]. rewrite E. simpl. destruct d; try discriminate Hd; reflexivity. }
  rewrite EP.
  assert (Hep : match ep ++ r with [] => True | b :: _ => is_digit b = false /\ b <> x2e end).
  { destruct He as [->|(e & s & ds' & -> & He & _)].
    - simpl. destruct r; [exact I|]. destruct Hr as (H1 & H2 & _). auto.
    - simpl. destruct He as [->| ->]; split; try reflexivity; discriminate. }
  assert (Hfp : match fp ++ ep ++ r with [] => True | b :: _ => is_digit b = false end).
  { destruct Hf as [->|(ds' & -> & _)].
    - simpl. destruct (ep ++ r); tauto.
    - reflexivity. }
  rewrite scan_int_complete by assumption. rewrite scan_frac_complete by assumption. rewrite scan_exp_complete by assumption. reflexivity.
Qed.

(** ** Lists of items *)
Section Items.
  Context {A : Type}.
  Variable P : bytes -> A -> Prop.
  Inductive More : bytes -> list A -> Prop :=
  | More_nil w : Ws w -> More w []
  | More_cons w1 w2 t a ts l : Ws w1 -> Ws w2 -> P t a -> More ts l -> More (w1 ++ x2c :: w2 ++ t ++ ts) (a :: l).
  Variable item : bytes -> option (A * bytes).
  Variable close : byte.

  Lemma items_sound
    (Hsound : forall b s a r, is_ws b = false -> item (b :: s) = Some (a, r) -> exists t, b :: s = t ++ r /\ P t a) :
    close <> x2c -> forall fuel,
    (forall s l r, parse_items item close fuel false s = Some (l, r) -> exists ts, s = ts ++ close :: r /\ More ts l) /\
    (forall s l r, parse_items item close fuel true s = Some (l, r) ->
       (l = [] /\ exists w, s = w ++ close :: r /\ Ws w) \/
       exists w t a ts l', l = a :: l' /\ s = w ++ t ++ ts ++ close :: r /\ Ws w /\ P t a /\ More ts l').
  Proof.
    intros Hclose. induction fuel as [|fuel [IH _]]; [split; discriminate|]. split; intros s l r H; cbn [parse_items] in H.
    - destruct (skip_ws_spec s) as (w & Es & Hw & [E|(b & s' & E & Hb)]); rewrite E in H; [discriminate|]. rewrite E in Es.
      destruct (byte_eqb_spec b close) as [->|Hbc].
      + injection H as <- <-. exists w. split; [exact Es|now constructor].
      + destruct (byte_eqb_spec b x2c) as [->|]; [|discriminate].
        destruct (skip_ws_spec s') as (w2 & Es' & Hw2 & [E2|(c & r1 & E2 & Hc)]); rewrite E2 in H; [discriminate|]. rewrite E2 in Es'.
        destruct (byte_eqb_spec c close) as [->|Hcc]; [discriminate|].
        destruct (item (c :: r1)) as [[a r2]|] eqn:Ei; [|discriminate]. apply Hsound in Ei as (t & Et & Ht); [|exact Hc].
        destruct (parse_items item close fuel false r2) as [[l' rest]|] eqn:Ep; [|discriminate]. injection H as <- <-.
        apply IH in Ep as (ts & -> & Hm). exists (w ++ x2c :: w2 ++ t ++ ts). split; [|now constructor].
        rewrite Es, Es', Et. rewrite <- !app_assoc. simpl. now rewrite <- !app_assoc.
    - destruct (skip_ws_spec s) as (w & Es & Hw & [E|(b & s' & E & Hb)]); rewrite E in H; [discriminate|]. rewrite E in Es.
      destruct (byte_eqb_spec b close) as [->|Hbc].
      + injection H as <- <-. left. split; [reflexivity|]. eauto.
      + destruct (item (b :: s')) as [[a r2]|] eqn:Ei; [|discriminate]. apply Hsound in Ei as (t & Et & Ht); [|exact Hb].
        destruct (parse_items item close fuel false r2) as [[l' rest]|] eqn:Ep; [|discriminate]. injection H as <- <-.
        apply IH in Ep as (ts & -> & Hm). right. exists w, t, a, ts, l'. rewrite Es, Et. auto.
  Qed.

  Hypothesis Hclose : close = x5d \/ close = x7d.
  Hypothesis Hcomplete : forall t a r, P t a -> stop r -> item (t ++ r) = Some (a, r).
  Hypothesis Hhead : forall t a, P t a -> exists b t', t = b :: t' /\ is_ws b = false /\ b <> close.

  Lemma close_ws : is_ws close = false.
  Proof using Hclose. destruct Hclose as [E|E]; rewrite E; reflexivity. Qed.

  Lemma More_stop ts l r : More ts l -> stop (ts ++ close :: r).
  Proof.
    assert (H0 : stop (close :: r)) by (destruct Hclose as [E|E]; rewrite E; repeat split; discriminate).
    assert (Hw : forall w q, Ws w -> stop q -> stop (w ++ q)).
    { intros [|b w] q H Hq; [exact Hq|]. inversion H as [|? ? Hb _]; subst. simpl.
      destruct Hb as [->|[->|[->| ->]]]; repeat split; discriminate. }
    destruct 1 as [w Hws|w1 w2 t a ts l H1 H2 HP HM]; [now apply Hw|]. rewrite <- app_assoc. apply Hw; [exact H1|].
    repeat split; discriminate.
  Qed.

  Lemma items_more ts l : More ts l -> forall fuel r, length ts < fuel ->
    parse_items item close fuel false (ts ++ close :: r) = Some (l, r).
  Proof.
    induction 1 as [w Hws|w1 w2 t a ts l H1 H2 HP HM IH]; intros [|fuel] r Hf; try lia; cbn [parse_items].
    - rewrite skip_ws_app by exact Hws. rewrite skip_ws_stop by apply close_ws. now rewrite byte_eqb_refl.
    - rewrite <- !app_assoc. rewrite skip_ws_app by exact H1. cbn [app]. rewrite skip_ws_stop by reflexivity.
      destruct (byte_eqb_spec x2c close) as [E|_]; [destruct Hclose; congruence|].
      change (Byte.eqb x2c x2c) with true. cbv iota. rewrite <- !app_assoc. rewrite skip_ws_app by exact H2.
      destruct (Hhead HP) as (b & t' & -> & Hb & Hbc). cbn [app]. rewrite skip_ws_stop by exact Hb.
      destruct (byte_eqb_spec b close); [contradiction|].
      change (b :: t' ++ ts ++ close :: r) with ((b :: t') ++ ts ++ close :: r).
      rewrite (Hcomplete _ HP) by (eapply More_stop; eauto).
      rewrite IH; [reflexivity|]. rewrite !app_length in Hf. simpl in Hf. rewrite !app_length in Hf. simpl in Hf. rewrite app_length in Hf. lia.
  Qed.

  Lemma items_empty w fuel r : Ws w -> 0 < fuel -> parse_items item close fuel true (w ++ close :: r) = Some ([], r).
  Proof using Hclose.
    clear Hcomplete Hhead P. intros Hw Hf. destruct fuel as [|fuel]; [lia|]. cbn [parse_items]. rewrite skip_ws_app by exact Hw.
    rewrite skip_ws_stop by apply close_ws. now rewrite byte_eqb_refl.
  Qed.

  Lemma items_first w t a ts l fuel r : Ws w -> P t a -> More ts l -> S (length ts) < fuel ->
    parse_items item close fuel true (w ++ t ++ ts ++ close :: r) = Some (a :: l, r).
  Proof.
    intros Hw HP HM Hf. destruct fuel as [|fuel]; [lia|]. cbn [parse_items]. rewrite skip_ws_app by exact Hw.
    destruct (Hhead HP) as (b & t' & -> & Hb & Hbc). cbn [app]. rewrite skip_ws_stop by exact Hb.
    destruct (byte_eqb_spec b close); [contradiction|].
    change (b :: t' ++ ts ++ close :: r) with ((b :: t') ++ ts ++ close :: r).
    rewrite (Hcomplete _ HP) by (eapply More_stop; eauto). rewrite (items_more HM) by lia. reflexivity.
  Qed.
End Items.

(** ** Values *)
Section Values.
  Variable num_val : bytes -> option f64.

  Lemma More_values_iff d ts vs : More_values num_val d ts vs <-> More (Value num_val d) ts vs.
  Proof. split; induction 1; constructor; auto. Qed.
  Lemma More_members_iff d ts ms : More_members num_val d ts ms <-> More (Member num_val d) ts ms.
  Proof. split; induction 1; constructor; auto. Qed.

  Lemma Number_head tok : Number tok -> exists b t', tok = b :: t' /\ (b = x2d \/ digit b).
  Proof.
    intros (sg & ip & fp & ep & -> & [->| ->] & Hi & _); [|do 2 eexists; split; [reflexivity|now left]].
    destruct (Int_head Hi) as (d & ds & -> & Hd). simpl. eauto.
  Qed.

  Lemma Value_head d t v : Value num_val d t v -> exists b t', t = b :: t' /\ is_ws b = false /\ b <> x5d /\ b <> x7d.
  Proof.
    destruct 1 as [d|d|d|d tok x Hn Hx|d src p s HC|d w Hw|d w t v ts vs Hw HV HM|d w Hw|d w t m ts ms Hw HV HM];
      try (do 2 eexists; split; [reflexivity|]; repeat split; discriminate).
    destruct (Number_head Hn) as (b & t' & -> & Hb). exists b, t'. split; [reflexivity|].
    destruct Hb as [->|Hb]; [repeat split; discriminate|]. unfold digit in Hb.
    repeat split; [|intros ->; simpl in Hb; lia|intros ->; simpl in Hb; lia].
    destruct (is_ws b) eqn:E; [|reflexivity]. apply is_ws_iff in E. destruct E as [->|[->|[->| ->]]]; simpl in Hb; lia.
  Qed.

  Lemma parse_value_sound d : forall s v r, parse_value num_val d s = Some (v, r) ->
    exists w t, s = w ++ t ++ r /\ Ws w /\ Value num_val d t v.
  Proof.
    induction d as [|d IH]; intros s v r H; cbn [parse_value] in H;
      destruct (skip_ws_spec s) as (w & Es & Hw & [E|(b & s' & E & Hb)]); rewrite E in H; try discriminate; rewrite E in Es;
      exists w; rewrite Es.
    - (* no further level *)
      destruct (byte_eqb_spec b x22) as [->|_].
      { destruct (parse_str s') as [[[p t] rest]|] eqn:Ep; [|discriminate]. injection H as <- <-.
        apply (parse_str_sound (n := length s')) in Ep as (src & -> & HC); [|lia]. exists (x22 :: src ++ [x22]).
        split; [simpl; now rewrite <- app_assoc|]. split; [exact Hw|now constructor]. }
      destruct (byte_eqb_spec b x5b) as [->|_]; [discriminate|]. destruct (byte_eqb_spec b x7b) as [->|_]; [discriminate|].
      destruct (starts_with_spec (b :: s') (B "null")) as [(r' & Er)|_].
      { rewrite Er in H |- *. injection H as <- <-. exists (B "null"). split; [reflexivity|]. split; [exact Hw|constructor]. }
      destruct (starts_with_spec (b :: s') (B "true")) as [(r' & Er)|_].
      { rewrite Er in H |- *. injection H as <- <-. exists (B "true"). split; [reflexivity|]. split; [exact Hw|constructor]. }
      destruct (starts_with_spec (b :: s') (B "false")) as [(r' & Er)|_].
      { rewrite Er in H |- *. injection H as <- <-. exists (B "false"). split; [reflexivity|]. split; [exact Hw|constructor]. }
      destruct (scan_number (b :: s')) as [[tok rest]|] eqn:En; [|discriminate]. destruct (num_val tok) as [x|] eqn:Ex; [|discriminate].
      injection H as <- <-. apply scan_number_sound in En as [En Hn]. exists tok. split; [now rewrite En|]. split; [exact Hw|now constructor].
    - destruct (byte_eqb_spec b x22) as [->|_].
      { destruct (parse_str s') as [[[p t] rest]|] eqn:Ep; [|discriminate]. injection H as <- <-.
        apply (parse_str_sound (n := length s')) in Ep as (src & -> & HC); [|lia]. exists (x22 :: src ++ [x22]).
        split; [simpl; now rewrite <- app_assoc|]. split; [exact Hw|now constructor]. }
      assert (Hpv : forall b s a r, is_ws b = false -> parse_value num_val d (b :: s) = Some (a, r) -> exists t, b :: s = t ++ r /\ Value num_val d t a).
      { intros b0 s0 a r0 Hb0 H0. apply IH in H0 as (w0 & t0 & E0 & Hw0 & HV). destruct w0 as [|b1 w0]; [eauto|].
        exfalso. inversion Hw0 as [|? ? Hb1 _]; subst. apply is_ws_iff in Hb1. simpl in E0. injection E0 as <- _. congruence. }
      destruct (byte_eqb_spec b x5b) as [->|_].
      { destruct (parse_items (parse_value num_val d) x5d (S (length s')) true s') as [[l rest]|] eqn:Ep; [|discriminate]. injection H as <- <-.
        apply (items_sound _ _ Hpv) in Ep as [(-> & w' & -> & Hw')|(w' & t & a & ts & l' & -> & -> & Hw' & Ht & HM)]; [| |discriminate].
        - exists (x5b :: w' ++ [x5d]). split; [simpl; now rewrite <- app_assoc|]. split; [exact Hw|now constructor].
        - exists (x5b :: w' ++ t ++ ts ++ [x5d]). split; [simpl; now rewrite <- !app_assoc|]. split; [exact Hw|].
          constructor; auto. now apply More_values_iff. }
      destruct (byte_eqb_spec b x7b) as [->|_].
      { destruct (parse_items (parse_member (parse_value num_val d)) x7d (S (length s')) true s') as [[l rest]|] eqn:Ep; [|discriminate]. injection H as <- <-.
        assert (Hpm : forall b s m r, is_ws b = false -> parse_member (parse_value num_val d) (b :: s) = Some (m, r) ->
          exists t, b :: s = t ++ r /\ Member num_val d t m).
        { clear - IH. intros b s m r Hb H. unfold parse_member in H. destruct (byte_eqb_spec b x22) as [->|]; [|discriminate].
          destruct (parse_str s) as [[[p k] r1]|] eqn:Ep; [|discriminate].
          apply (parse_str_sound (n := length s)) in Ep as (src & -> & HC); [|lia].
          destruct (skip_ws_spec r1) as (w1 & Es1 & Hw1 & [E1|(c & r2 & E1 & Hc)]); rewrite E1 in H; [discriminate|]. rewrite E1 in Es1.
          destruct (byte_eqb_spec c x3a) as [->|]; [|discriminate].
          destruct (parse_value num_val d r2) as [[v r3]|] eqn:Ev; [|discriminate]. injection H as <- <-.
          apply IH in Ev as (w2 & t & -> & Hw2 & HV). exists (x22 :: src ++ x22 :: w1 ++ x3a :: w2 ++ t).
          split; [|now constructor]. rewrite Es1. simpl. rewrite <- !app_assoc. simpl. rewrite <- !app_assoc. simpl. now rewrite <- !app_assoc. }
        apply (items_sound _ _ Hpm) in Ep as [(-> & w' & -> & Hw')|(w' & t & a & ts & l' & -> & -> & Hw' & Ht & HM)]; [| |discriminate].
        - exists (x7b :: w' ++ [x7d]). split; [simpl; now rewrite <- app_assoc|]. split; [exact Hw|now constructor].
        - exists (x7b :: w' ++ t ++ ts ++ [x7d]). split; [simpl; now rewrite <- !app_assoc|]. split; [exact Hw|].
          constructor; auto. now apply More_members_iff. }
      destruct (starts_with_spec (b :: s') (B "null")) as [(r' & Er)|_].
      { rewrite Er in H |- *. injection H as <- <-. exists (B "null"). split; [reflexivity|]. split; [exact Hw|constructor]. }
      destruct (starts_with_spec (b :: s') (B "true")) as [(r' & Er)|_].
      { rewrite Er in H |- *. injection H as <- <-. exists (B "true"). split; [reflexivity|]. split; [exact Hw|constructor]. }
      destruct (starts_with_spec (b :: s') (B "false")) as [(r' & Er)|_].
      { rewrite Er in H |- *. injection H as <- <-. exists (B "false"). split; [reflexivity|]. split; [exact Hw|constructor]. }
      destruct (scan_number (b :: s')) as [[tok rest]|] eqn:En; [|discriminate]. destruct (num_val tok) as [x|] eqn:Ex; [|discriminate].
      injection H as <- <-. apply scan_number_sound in En as [En Hn]. exists tok. split; [now rewrite En|]. split; [exact Hw|now constructor].
  Qed.

  Lemma parse_scalar_number d tok x r : Number tok -> num_val tok = Some x -> stop r ->
    parse_value num_val d (tok ++ r) = Some (JNum x, r).
  Proof.
    intros Hn Hx Hr. assert (Hv : Value num_val d tok (JNum x)) by now constructor.
    assert (Hsc := scan_number_complete r Hn Hr).
    destruct (Number_head Hn) as (b & t' & -> & Hb).
    assert (Hnd : is_ws b = false /\ b <> x22 /\ b <> x5b /\ b <> x7b /\ b <> x6e /\ b <> x74 /\ b <> x66).
    { destruct Hb as [->|Hb]; [repeat split; discriminate|]. apply is_digit_iff in Hb.
      destruct b; try discriminate Hb; repeat split; discriminate. }
    destruct Hnd as (Hw & H1 & H2 & H3 & H4 & H5 & H6).
    assert (Hsw : forall c l, b <> c -> starts_with ((b :: t') ++ r) (c :: l) = false).
    { intros c l Hc. simpl. now destruct (byte_eqb_spec b c). }
    cbn [app] in *. destruct d as [|d]; cbn [parse_value];
      rewrite skip_ws_stop by exact Hw; destruct (byte_eqb_spec b x22); try contradiction;
      destruct (byte_eqb_spec b x5b); try contradiction; destruct (byte_eqb_spec b x7b); try contradiction;
      change (B "null") with [x6e; x75; x6c; x6c]; change (B "true") with [x74; x72; x75; x65]; change (B "false") with [x66; x61; x6c; x73; x65];
      rewrite !Hsw by assumption; rewrite Hsc, Hx; reflexivity.
  Qed.

  Lemma parse_value_complete d : forall w t v r, Ws w -> Value num_val d t v -> stop r ->
    parse_value num_val d (w ++ t ++ r) = Some (v, r).
  Proof.
    assert (Hskip : forall d w s, Ws w -> parse_value num_val d (w ++ s) = parse_value num_val d s).
    { intros [|d'] w s Hw; cbn [parse_value]; now rewrite skip_ws_app. }
    induction d as [|d IH]; intros w t v r Hw HV Hr; rewrite Hskip by exact Hw; clear w Hw.
    - inversion HV as [d0|d0|d0|d0 tok x Hn Hx|d0 src p s HC| | | |]; subst; try (destruct r; reflexivity).
      + now apply parse_scalar_number.
      + simpl. rewrite <- app_assoc. cbn [app]. rewrite (parse_str_complete HC). reflexivity.
    - assert (Hc : forall t a r, Value num_val d t a -> stop r -> parse_value num_val d (t ++ r) = Some (a, r)).
      { intros t0 a r0 H0 Hr0. apply (IH []); auto. constructor. }
      assert (Hm : forall t a r, Member num_val d t a -> stop r -> parse_member (parse_value num_val d) (t ++ r) = Some (a, r)).
      { intros t0 a r0 HM0 Hr0. inversion HM0 as [d0 src p k w1 w2 t1 v1 HC Hw1 Hw2 HV1]; subst. unfold parse_member. cbn [app].
        change (Byte.eqb x22 x22) with true. cbv iota. rewrite <- app_assoc. cbn [app]. rewrite (parse_str_complete HC).
        rewrite <- app_assoc. rewrite skip_ws_app by exact Hw1. cbn [app]. rewrite skip_ws_stop by reflexivity.
        change (Byte.eqb x3a x3a) with true. cbv iota. rewrite <- app_assoc. erewrite IH by eassumption. reflexivity. }
      inversion HV as [d0|d0|d0|d0 tok x Hn Hx|d0 src p s HC|d0 w Hw|d0 w t0 v0 ts vs Hw HV0 HM|d0 w Hw|d0 w t0 m ts ms Hw HV0 HM]; subst; try (destruct r; reflexivity).
      + now apply parse_scalar_number.
      + cbn [app parse_value]. rewrite skip_ws_stop by reflexivity. change (Byte.eqb x22 x22) with true. cbv iota.
        rewrite <- app_assoc. cbn [app]. rewrite (parse_str_complete HC). reflexivity.
      + cbn [app parse_value]. rewrite skip_ws_stop by reflexivity. change (Byte.eqb x5b x22) with false. change (Byte.eqb x5b x5b) with true. cbv iota.
        rewrite <- app_assoc. cbn [app]. rewrite items_empty; auto; lia.
      + cbn [app parse_value]. rewrite skip_ws_stop by reflexivity. change (Byte.eqb x5b x22) with false. change (Byte.eqb x5b x5b) with true. cbv iota.
        rewrite <- !app_assoc. cbn [app]. rewrite (@items_first _ (Value num_val d)) with (a := v0) (l := vs); auto.
        * intros t1 a1 H1. destruct (Value_head H1) as (b & t' & -> & H2 & H3 & H4). eauto.
        * now apply More_values_iff.
        * destruct (Value_head HV0) as (b & t' & -> & _). rewrite !app_length. simpl. rewrite ?app_length. simpl. lia.
      + cbn [app parse_value]. rewrite skip_ws_stop by reflexivity. change (Byte.eqb x7b x22) with false. change (Byte.eqb x7b x5b) with false. change (Byte.eqb x7b x7b) with true. cbv iota.
        rewrite <- app_assoc. cbn [app]. rewrite items_empty; auto; lia.
      + cbn [app parse_value]. rewrite skip_ws_stop by reflexivity. change (Byte.eqb x7b x22) with false. change (Byte.eqb x7b x5b) with false. change (Byte.eqb x7b x7b) with true. cbv iota.
        rewrite <- !app_assoc. cbn [app]. rewrite (@items_first _ (Member num_val d)) with (a := m) (l := ms); auto.
        * intros t1 a1 [d1 src p k w1 w2 t2 v1 HC Hw1 Hw2 HV1]. do 2 eexists. split; [reflexivity|]. split; [reflexivity|discriminate].
        * now apply More_members_iff.
        * destruct HV0 as [d1 src p k w1 w2 t2 v1 HC Hw1 Hw2 HV1]. rewrite !app_length. simpl. rewrite ?app_length. simpl. lia.
  Qed.

  Lemma Ws_stop w : Ws w -> stop w.
  Proof. destruct 1 as [|b w Hb Hw]; [exact I|]. simpl. destruct Hb as [->|[->|[->| ->]]]; repeat split; discriminate. Qed.

  Lemma skip_ws_nil s : skip_ws s = [] <-> Ws s.
  Proof.
    split.
    - intros H. destruct (skip_ws_spec s) as (w & E & Hw & _). rewrite H, app_nil_r in E. now subst.
    - intros H. rewrite <- (app_nil_r s). rewrite skip_ws_app by exact H. reflexivity.
  Qed.

  Lemma parse_document_iff doc v : parse_document num_val doc = Some v <-> Document num_val doc v.
  Proof.
    unfold parse_document, Document. split.
    - destruct (parse_value num_val 127 doc) as [[v' rest]|] eqn:E; [|discriminate].
      destruct (skip_ws rest) eqn:Er; [|discriminate]. intros [= <-]. apply skip_ws_nil in Er.
      apply parse_value_sound in E as (w & t & -> & Hw & HV). exists w, t, rest. auto.
    - intros (w & t & w' & -> & Hw & Hw' & HV). erewrite parse_value_complete by eauto using Ws_stop.
      now rewrite (proj2 (skip_ws_nil w') Hw').
  Qed.

  (** Reading is unambiguous, and no document is the strict prefix of another one, up to white space. *)
  Lemma Document_fun doc v v' : Document num_val doc v -> Document num_val doc v' -> v = v'.
  Proof. rewrite <- !parse_document_iff. congruence. Qed.

  Definition is_obj (v : json) : Prop := match v with JObj _ => True | _ => False end.

  (** After an object anything may follow. *)
  Lemma parse_object d w t v r : is_obj v -> Ws w -> Value num_val d t v -> parse_value num_val d (w ++ t ++ r) = Some (v, r).
  Proof.
    intros Ho Hw HV. destruct v as [| | | | |l]; try contradiction.
    assert (Hskip : forall d w s, Ws w -> parse_value num_val d (w ++ s) = parse_value num_val d s).
    { intros [|d'] w0 s Hw0; cbn [parse_value]; now rewrite skip_ws_app. }
    rewrite Hskip by exact Hw.
    inversion HV as [| | | | | | |d0 w0 Hw0|d0 w0 t0 m ts ms Hw0 HV0 HM]; subst.
    - cbn [app parse_value]. rewrite skip_ws_stop by reflexivity. change (Byte.eqb x7b x22) with false. change (Byte.eqb x7b x5b) with false. change (Byte.eqb x7b x7b) with true. cbv iota.
      rewrite <- app_assoc. cbn [app]. rewrite items_empty; auto; lia.
    - cbn [app parse_value]. rewrite skip_ws_stop by reflexivity. change (Byte.eqb x7b x22) with false. change (Byte.eqb x7b x5b) with false. change (Byte.eqb x7b x7b) with true. cbv iota.
      assert (Hm : forall t a r, Member num_val d0 t a -> stop r -> parse_member (parse_value num_val d0) (t ++ r) = Some (a, r)).
      { intros t1 a r0 HM0 Hr0. inversion HM0 as [d1 src p k w1' w2 t2 v1 HC Hw1 Hw2 HV1]; subst. unfold parse_member. cbn [app].
        change (Byte.eqb x22 x22) with true. cbv iota. rewrite <- app_assoc. cbn [app]. rewrite (parse_str_complete HC).
        rewrite <- app_assoc. rewrite skip_ws_app by exact Hw1. cbn [app]. rewrite skip_ws_stop by reflexivity.
        change (Byte.eqb x3a x3a) with true. cbv iota. rewrite <- app_assoc. erewrite parse_value_complete by eassumption. reflexivity. }
      rewrite <- !app_assoc. cbn [app]. rewrite (@items_first _ (Member num_val d0)) with (a := m) (l := ms); auto.
      + intros t1 a1 [d1 src p k w1' w2 t2 v1 HC Hw1 Hw2 HV1]. do 2 eexists. split; [reflexivity|]. split; [reflexivity|discriminate].
      + now apply More_members_iff.
      + destruct HV0 as [d1 src p k w1' w2 t2 v1 HC Hw1 Hw2 HV1]. rewrite !app_length. simpl. rewrite ?app_length. simpl. lia.
  Qed.

  Lemma Document_prefix p q v v' : is_obj v ->
    Document num_val p v -> Document num_val (p ++ q) v' -> Ws q /\ v = v'.
  Proof.
    intros Ho HD HD'. apply parse_document_iff in HD'. revert HD HD'. unfold Document, parse_document. generalize 127 as d.
    intros d (w & t & w1 & -> & Hw & Hw1 & HV) HD. rewrite <- !app_assoc in HD.
    erewrite parse_object in HD by eassumption.
    destruct (skip_ws (w1 ++ q)) eqn:E; [|discriminate]. injection HD as <-. split; [|reflexivity].
    apply skip_ws_nil in E. apply Forall_app in E. apply E.
  Qed.
End Values.
