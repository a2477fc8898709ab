(** The JSON writer writes texts of the grammar. *)
From Verif Require Import Base BaseProofs F64 Utf8 SpecUtf8 Utf8Proofs SpecJson SpecSerde Json JsonProofs.
Set Implicit Arguments.

Section Ind.
  Variable P : json -> Prop.
  Hypothesis Hnull : P JNull.
  Hypothesis Hbool : forall b, P (JBool b).
  Hypothesis Hnum : forall x, P (JNum x).
  Hypothesis Hstr : forall p s, P (JStr p s).
  Hypothesis Harr : forall l, Forall P l -> P (JArr l).
  Hypothesis Hobj : forall l, Forall (fun m => P (snd m)) l -> P (JObj l).
  Fixpoint json_rect' (v : json) : P v :=
    match v with
    | JNull => Hnull
    | JBool b => Hbool b
    | JNum x => Hnum x
    | JStr p s => Hstr p s
    | JArr l => Harr ((fix go l : Forall P l := match l with [] => Forall_nil _ | v :: l' => Forall_cons _ (json_rect' v) (go l') end) l)
    | JObj l => Hobj ((fix go (l : list (bool * bytes * json)) : Forall (fun m => P (snd m)) l :=
        match l with [] => Forall_nil _ | m :: l' => Forall_cons m (json_rect' (snd m)) (go l') end) l)
    end.
End Ind.

(** ** Strings *)
Lemma escape_Chars b src p s : Chars src p s -> Chars (escape b ++ src) (Nat.eqb (length (escape b)) 1 && p) (b :: s).
Proof.
  intros H.
  assert (Hu : forall n, (n < 0x20)%N -> Chars (x5c :: x75 :: [x30; x30; hex_lower (n / 16); hex_lower (n mod 16)] ++ src) false (encode_char n ++ s)).
  { intros n Hn. apply Chars_u with (p := p); [|unfold scalar; lia|exact H].
    apply hex4_iff.
    assert (E := Base64Proofs.forall_below 0x20 (fun n => match hex4 x30 x30 (hex_lower (n / 16)) (hex_lower (n mod 16)) with Some m => N.eqb m n | None => false end) eq_refl Hn).
    cbv beta in E. destruct (hex4 _ _ _ _) as [m|]; [|discriminate]. apply N.eqb_eq in E. now subst. }
  destruct b; try (apply Chars_plain; [vm_compute; discriminate|discriminate|discriminate|exact H]);
    try (apply Chars_short with (p := p); [cbv; tauto|exact H]);
    match goal with |- Chars _ _ (?b :: _) => exact (Hu (Byte.to_N b) eq_refl) end.
Qed.

Lemma write_Chars s : Chars (flat_map escape s) (plain s) s.
Proof. induction s as [|b s IH]; [constructor|]. simpl. now apply escape_Chars. Qed.

Lemma plain_iff s : plain s = true <-> unescaped s.
Proof.
  unfold plain, unescaped. rewrite forallb_forall, Forall_forall.
  assert (H : forall b, Nat.eqb (length (escape b)) 1 = true <-> ~ needs_escape b).
  { intros b. unfold needs_escape. destruct b; simpl; split; intros H; try discriminate; try reflexivity;
      try (intros [H'|[H'|H']]; [discriminate|discriminate|]; revert H'; vm_compute; discriminate);
      exfalso; apply H; auto; right; right; reflexivity. }
  split; intros Hs b Hb; apply H; auto.
Qed.

(** ** Values *)
Fixpoint height (v : json) : nat :=
  match v with
  | JArr l => S (list_max (map height l))
  | JObj l => S (list_max (map (fun m => match m with (_, v) => height v end) l))
  | _ => 0
  end.

Section Write.
  Variable fmt_num : f64 -> bytes.
  Variable num_val : bytes -> option f64.
  Variable codec : f64 -> f64.
  Hypothesis Hcodec : num_codec fmt_num num_val codec.

  (** What is read back. *)
  Fixpoint reread (v : json) : json :=
    match v with
    | JNum x => if f_is_finite x then JNum (codec x) else JNull
    | JStr _ s => JStr (plain s) s
    | JArr l => JArr (map reread l)
    | JObj l => JObj (map (fun m => match m with (_, k, v) => (plain k, k, reread v) end) l)
    | v => v
    end.

  Lemma newline_Ws p l : Ws (newline p l).
  Proof.
    unfold newline. destruct p; [|constructor]. constructor; [auto|]. apply Forall_forall. intros b Hb.
    apply repeat_spec in Hb. subst. auto.
  Qed.

  Lemma intercalate_cons sep a l : intercalate sep (a :: l) = a ++ List.concat (map (fun x => sep ++ x) l).
  Proof.
    revert a. induction l as [|b l IH]; intros a; [simpl; now rewrite app_nil_r|].
    change (intercalate sep (a :: b :: l)) with (a ++ sep ++ intercalate sep (b :: l)). rewrite IH. simpl. now rewrite <- !app_assoc.
  Qed.

  Lemma bracket_shape {A B} (P : bytes -> B -> Prop) p level o c (f : A -> bytes) (g : A -> B) l :
    Forall (fun a => P (f a) (g a)) l ->
    match l with
    | [] => bracket p level o c (map f l) = [o; c]
    | a :: l' => exists w ts, bracket p level o c (map f l) = o :: w ++ f a ++ ts ++ [c] /\ Ws w /\ More P ts (map g l')
    end.
  Proof.
    intros H. destruct H as [|a l Ha Hl]; [reflexivity|].
    exists (newline p (S level)), (List.concat (map (fun x => (x2c :: newline p (S level)) ++ x) (map f l)) ++ newline p level).
    split; [|split; [apply newline_Ws|]].
    - unfold bracket. change (map f (a :: l)) with (f a :: map f l). cbv iota. rewrite intercalate_cons. now rewrite <- !app_assoc.
    - induction Hl as [|b l Hb Hl IH]; simpl.
      + constructor. apply newline_Ws.
      + rewrite <- !app_assoc. apply (More_cons (w1 := [])); [constructor|apply newline_Ws|exact Hb|exact IH].
  Qed.

  Lemma write_Value pretty v : forall level d, height v <= d -> Value num_val d (write fmt_num pretty level v) (reread v).
  Proof.
    induction v as [|b|x|p s|l IH|l IH] using json_rect'; intros level d Hd; cbn [write reread].
    - constructor.
    - destruct b; constructor.
    - destruct (f_is_finite x) eqn:E; [|constructor]. destruct (Hcodec x E). now constructor.
    - unfold write_str. constructor. apply write_Chars.
    - destruct d as [|d]; [simpl in Hd; lia|].
      assert (H : Forall (fun v => Value num_val d (write fmt_num pretty (S level) v) (reread v)) l).
      { rewrite Forall_forall in *. intros v Hv. apply IH; [exact Hv|]. simpl in Hd.
        assert (Hm := proj1 (list_max_le (map height l) d) ltac:(lia)). rewrite Forall_forall in Hm. apply Hm. now apply in_map. }
      apply (bracket_shape _ pretty level x5b x5d) in H. destruct l as [|v l].
      + simpl in H. simpl. apply (@Value_arr_empty num_val d []). constructor.
      + destruct H as (w & ts & E & Hw & HM). rewrite E. simpl map. clear E.
        assert (H0 : Value num_val d (write fmt_num pretty (S level) v) (reread v)).
        { inversion IH; subst. apply H1. simpl in Hd. lia. }
        constructor; auto. now apply More_values_iff.
    - destruct d as [|d]; [simpl in Hd; lia|].
      set (f := fun m => match m with (_, k, v) => write_str k ++ colon pretty ++ write fmt_num pretty (S level) v end).
      set (g := fun m => match m with (_, k, v) => (plain k, k, reread v) end).
      assert (H : Forall (fun m : bool * bytes * json => Member num_val d (f m) (g m)) l).
      { rewrite Forall_forall in *. intros [[p k] v] Hv. unfold f, g, write_str.
        assert (HV : Value num_val d (write fmt_num pretty (S level) v) (reread v)).
        { apply (IH _ Hv). simpl in Hd. assert (Hm := proj1 (list_max_le (map (fun m : bool * bytes * json => match m with (_, v) => height v end) l) d) ltac:(lia)).
          rewrite Forall_forall in Hm. simpl. apply Hm. apply in_map_iff. exists (p, k, v). auto. }
        assert (HM : forall w2, Ws w2 -> Member num_val d (x22 :: flat_map escape k ++ x22 :: [] ++ x3a :: w2 ++ write fmt_num pretty (S level) v) (plain k, k, reread v)).
        { intros w2 Hw2. constructor; auto; [apply write_Chars|constructor]. }
        simpl. rewrite <- app_assoc. destruct pretty; [apply (HM [x20])|apply (HM [])]; repeat constructor. }
      apply (bracket_shape _ pretty level x7b x7d) in H as H'. change (Value num_val (S d) (bracket pretty level x7b x7d (map f l)) (JObj (map g l))). destruct l as [|m l].
      + simpl in H'. simpl. apply (@Value_obj_empty num_val d []). constructor.
      + destruct H' as (w & ts & E & Hw & HM). refine (eq_ind_r (fun x => Value num_val (S d) x _) _ E). simpl map. clear E. inversion H; subst.
        constructor; auto. now apply More_members_iff.
  Qed.

  Lemma write_document pretty v : height v <= 127 -> Document num_val (write fmt_num pretty 0 v) (reread v).
  Proof.
    intros H. exists [], (write fmt_num pretty 0 v), []. split; [now rewrite app_nil_r|].
    split; [constructor|]. split; [constructor|]. now apply write_Value.
  Qed.
End Write.

(** ** Written texts are valid UTF-8 *)
Lemma ascii_Utf8 s : Forall (fun b => (Byte.to_N b < 0x80)%N) s -> Utf8 s.
Proof.
  induction 1 as [|b s Hb Hs IH]; [apply Utf8_nil|]. apply (@Utf8_app [b]); [|exact IH].
  replace [b] with (encode_char (Byte.to_N b)); [apply Utf8_char; unfold scalar; lia|].
  unfold encode_char. replace (Byte.to_N b <? 0x80)%N with true by lia. f_equal. apply byte_of_N_bN.
Qed.

Lemma Number_ascii tok : Number tok -> Forall (fun b => (Byte.to_N b < 0x80)%N) tok.
Proof.
  assert (Hdig : forall ds, Forall digit ds -> Forall (fun b => (Byte.to_N b < 0x80)%N) ds).
  { intros ds. apply Forall_impl. intros b. unfold digit. lia. }
  intros (sg & ip & fp & ep & -> & Hs & Hi & Hf & He). rewrite !Forall_app. repeat split.
  - destruct Hs as [->| ->]; repeat constructor.
  - destruct Hi as [->|[[_ Hd] _]]; [repeat constructor|auto].
  - destruct Hf as [->|(ds & -> & _ & Hd)]; [constructor|]. constructor; [reflexivity|auto].
  - destruct He as [->|(e & s & ds & -> & He & Hs' & _ & Hd)]; [constructor|]. constructor.
    + destruct He as [->| ->]; reflexivity.
    + rewrite Forall_app. split; [|auto]. destruct Hs' as [->|[->| ->]]; repeat constructor.
Qed.

(** All strings of the tree are valid. *)
Fixpoint strings_ok (v : json) : Prop :=
  match v with
  | JStr _ s => Utf8 s
  | JArr l => (fix all l := match l with [] => True | v :: l' => strings_ok v /\ all l' end) l
  | JObj l => (fix all (l : list (bool * bytes * json)) := match l with [] => True | (_, k, v) :: l' => (Utf8 k /\ strings_ok v) /\ all l' end) l
  | _ => True
  end.

Lemma escape_high b : (0x80 <= Byte.to_N b)%N -> escape b = [b].
Proof. destruct b; vm_compute; try reflexivity; intros H; exfalso; apply H; reflexivity. Qed.
Lemma escape_low b : (Byte.to_N b < 0x80)%N -> Forall (fun b => (Byte.to_N b < 0x80)%N) (escape b).
Proof. destruct b; vm_compute; intros H; try discriminate H; repeat constructor. Qed.

Lemma escaped_Utf8 s : Utf8 s -> Utf8 (flat_map escape s).
Proof.
  intros (cs & Hcs & ->). induction Hcs as [|c cs Hc Hcs IH]; [apply Utf8_nil|].
  unfold encode_string. simpl. rewrite flat_map_app. apply Utf8_app; [|exact IH]. clear IH.
  destruct (N.ltb_spec c 0x80) as [Hlt|Hge].
  - unfold encode_char. replace (c <? 0x80)%N with true by lia. cbn [flat_map]. rewrite app_nil_r. apply ascii_Utf8. apply escape_low.
    change Byte.to_N with bN. rewrite bN_byte_of_N by lia. exact Hlt.
  - replace (flat_map escape (encode_char c)) with (encode_char c); [now apply Utf8_char|]. unfold scalar in Hc.
    assert (H : Forall (fun b => escape b = [b]) (encode_char c)).
    { assert (Hb : forall n, (0x80 <= n < 256)%N -> escape (byte_of_N n) = [byte_of_N n]).
      { intros n Hn. apply escape_high. change Byte.to_N with bN. rewrite bN_byte_of_N; lia. }
      unfold encode_char. replace (c <? 0x80)%N with false by lia.
      destruct (c <? 0x800)%N eqn:E1; [|destruct (c <? 0x10000)%N eqn:E2]; repeat constructor; apply Hb; Z.div_mod_to_equations; lia. }
    clear - H. induction H as [|b l Hb Hl IH]; [reflexivity|]. simpl. rewrite Hb. simpl. now f_equal.
Qed.

Lemma write_str_Utf8 s : Utf8 s -> Utf8 (write_str s).
Proof.
  intros H. unfold write_str. apply (@Utf8_app [x22]); [apply ascii_Utf8; repeat constructor|].
  apply Utf8_app; [now apply escaped_Utf8|apply ascii_Utf8; repeat constructor].
Qed.

Lemma newline_Utf8 p l : Utf8 (newline p l).
Proof.
  apply ascii_Utf8. unfold newline. destruct p; constructor; [reflexivity|].
  apply Forall_forall. intros b Hb. apply repeat_spec in Hb. now subst.
Qed.

Lemma bracket_Utf8 p level o c items : (Byte.to_N o < 0x80)%N -> (Byte.to_N c < 0x80)%N -> Forall Utf8 items ->
  Utf8 (bracket p level o c items).
Proof.
  intros Ho Hc H. destruct H as [|a l Ha Hl]; [apply ascii_Utf8; repeat constructor; assumption|].
  unfold bracket. rewrite intercalate_cons. apply (@Utf8_app [o]); [apply ascii_Utf8; repeat constructor; assumption|].
  apply Utf8_app; [apply newline_Utf8|]. apply Utf8_app.
  - apply Utf8_app; [exact Ha|]. apply Utf8_concat. apply Forall_map. revert Hl. apply Forall_impl. intros s Hs.
    apply (@Utf8_app (x2c :: newline p (S level))); [|exact Hs]. apply (@Utf8_app [x2c]); [apply ascii_Utf8; repeat constructor|apply newline_Utf8].
  - apply Utf8_app; [apply newline_Utf8|apply ascii_Utf8; repeat constructor; assumption].
Qed.

Lemma write_Utf8 fmt_num pretty v : (forall x, f_is_finite x = true -> Number (fmt_num x)) ->
  forall level, strings_ok v -> Utf8 (write fmt_num pretty level v).
Proof.
  intros Hn. induction v as [|b|x|p s|l IH|l IH] using json_rect'; intros level Hs; cbn [write].
  - apply ascii_Utf8. repeat constructor.
  - apply ascii_Utf8. destruct b; repeat constructor.
  - destruct (f_is_finite x) eqn:E; [|apply ascii_Utf8; repeat constructor]. apply ascii_Utf8. apply Number_ascii. auto.
  - now apply write_str_Utf8.
  - apply bracket_Utf8; [reflexivity|reflexivity|]. apply Forall_map.
    induction IH as [|v l Hv Hl IHl]; [constructor|]. destruct Hs as [H1 H2]. constructor; auto.
  - apply bracket_Utf8; [reflexivity|reflexivity|]. apply Forall_map.
    induction IH as [|[[p k] v] l Hv Hl IHl]; [constructor|]. destruct Hs as [[Hk H1] H2]. constructor; [|apply IHl; exact H2].
    apply Utf8_app; [now apply write_str_Utf8|]. apply Utf8_app; [|now apply Hv]. apply ascii_Utf8. destruct pretty; repeat constructor.
Qed.
