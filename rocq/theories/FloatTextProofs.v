(** What [f64::from_str] makes of a text. *)
From Coq Require Import ZArith Reals Bool Lia Lra.
From Flocq Require Import Core IEEE754.BinarySingleNaN.
From Coq.Strings Require Import String.
From Verif Require Import Base BaseProofs F64 F64Proofs Utf8 SpecUtf8 SpecJson Json SpecNum JsonNum RoundProofs ShortestProofs PartsProofs JsonNumProofs CodecProofs SpecFloatText RustFloat.
Set Implicit Arguments.
Local Open Scope Z_scope.

(** ** The number *)
Lemma ratio_rounded s p q : Rounded s (IZR (Zpos p) / IZR (Zpos q)) (ratio s p q).
Proof.
  unfold ratio. assert (H := proj2 (Bdiv_correct_aux prec64 emax64 prec64_gt_0 prec64_lt_emax mode_NE s p 0 false q 0)). cbv zeta in H.
  generalize (proj1 (Bdiv_correct_aux prec64 emax64 prec64_gt_0 prec64_lt_emax mode_NE s p 0 false q 0)).
  set (z := (let '(mz, ez, lz) := SpecFloat.SFdiv_core_binary prec64 emax64 (Z.pos p) 0 (Z.pos q) 0 in binary_round_aux prec64 emax64 mode_NE (xorb s false) mz ez lz)) in *.
  intros V.
  assert (Hp : (0 < IZR (Zpos p))%R) by (apply IZR_lt; lia). assert (Hq : (0 < IZR (Zpos q))%R) by (apply IZR_lt; lia).
  set (v := (IZR (Zpos p) / IZR (Zpos q))%R) in *. assert (Hv : (0 < v)%R) by (now apply Rdiv_lt_0_compat).
  assert (E : (F2R (Float radix2 (cond_Zopp s (Zpos p)) 0) / F2R (Float radix2 (cond_Zopp false (Zpos q)) 0) = if s then - v else v)%R).
  { unfold F2R, v. cbn [Fnum Fexp bpow]. rewrite !Rmult_1_r. destruct s; cbn [cond_Zopp]; [|reflexivity]. rewrite opp_IZR. field. lra. }
  rewrite E in H. clear E. rewrite xorb_false_r in H.
  assert (E : round radix2 (SpecFloat.fexp prec64 emax64) (round_mode mode_NE) (if s then - v else v) = (if s then - nearest v else nearest v)%R).
  { destruct s; [|reflexivity]. exact (nearest_opp v). }
  rewrite E in H. clear E. assert (Hn : (0 <= nearest v)%R) by (apply nearest_ge_0; lra).
  assert (Ha : Rabs (if s then - nearest v else nearest v) = nearest v) by (destruct s; [rewrite Rabs_Ropp|]; now apply Rabs_pos_eq).
  rewrite Ha in H. unfold Rounded. change emax64 with 1024 in H.
  clearbody z. destruct (Rlt_bool_spec (nearest v) (bpow radix2 1024)) as [Hl|Hl].
  - destruct H as (H1 & H2 & H3). split; [now rewrite Bsign_SF2B|]. left. split; [exact Hl|]. split; [now rewrite is_finite_SF2B|]. rewrite B2R_SF2B, H1. exact Ha.
  - assert (E : SF2B z V = B754_infinity s) by (apply B2SF_inj; rewrite B2SF_SF2B; exact H). rewrite E. split; [reflexivity|]. right. split; [exact Hl|reflexivity].
Qed.
Lemma to_f64_rounded s m e : 0 <= m -> Rounded s (decimal m e) (to_f64 s m e).
Proof.
  intros Hm. destruct m as [|p|p]; [|cbn [to_f64]|lia].
  - cbn [to_f64]. split; [reflexivity|]. left. assert (E : decimal 0 e = 0%R) by (unfold decimal; ring). rewrite E, nearest_0. split; [apply bpow_gt_0|]. split; [reflexivity|]. cbn. apply Rabs_R0.
  - destruct (Z.leb_spec 0 e) as [He|He].
    + assert (E : decimal (Zpos p) e = (IZR (Zpos (p * Z.to_pos (10 ^ e))) / IZR 1)%R).
      { rewrite Pos2Z.inj_mul, Z2Pos.id by (apply Z.pow_pos_nonneg; lia). unfold decimal. rewrite mult_IZR, p10_Z by exact He. field. }
      rewrite E. apply ratio_rounded.
    + assert (E : decimal (Zpos p) e = (IZR (Zpos p) / IZR (Zpos (Z.to_pos (10 ^ - e))))%R).
      { rewrite Z2Pos.id by (apply Z.pow_pos_nonneg; lia). rewrite <- decimal_P by lia. now rewrite Z.opp_involutive. }
      rewrite E. apply ratio_rounded.
Qed.

(** ** Very large and very small numbers *)
Lemma decimal_huge c k : 1 <= c -> 1024 <= k -> (bpow radix2 1024 <= nearest (decimal c k))%R.
Proof.
  intros Hc Hk. rewrite <- (F2 (e := 1024)) by lia. apply nearest_le. unfold decimal. rewrite p10_Z by lia. change (bpow radix2 1024) with (IZR (2 ^ 1024)). rewrite <- mult_IZR. apply IZR_le.
  apply Z.le_trans with (1 * 10 ^ k); [|apply Z.mul_le_mono_nonneg_r; [apply Z.pow_nonneg; lia|exact Hc]]. rewrite Z.mul_1_l. apply Z.le_trans with (10 ^ 1024); [apply Z.pow_le_mono_l; lia|apply Z.pow_le_mono_r; lia].
Qed.
Lemma decimal_tiny c k l : 0 <= c < 10 ^ l -> 0 <= l -> k + l <= -1100 -> nearest (decimal c k) = 0%R.
Proof.
  intros Hc Hl Hk. apply nearest_small; [now apply decimal_nonneg|]. apply Rle_lt_trans with (decimal (10 ^ l) k); [apply decimal_le; lia|].
  assert (E : decimal (10 ^ l) k = decimal 1 (- (- (l + k)))) by (replace (- - (l + k)) with (k + l) by lia; rewrite <- decimal_shift by exact Hl; now rewrite Z.mul_1_l).
  rewrite E, decimal_P by lia. unfold eta. rewrite <- (Z.opp_involutive (-1075)), bpow_opp. change (- -1075) with 1075. unfold Rdiv. rewrite Rmult_1_l. apply Rinv_lt; [apply bpow_gt_0|].
  change (bpow radix2 1075) with (IZR (2 ^ 1075)). apply IZR_lt. apply Z.lt_le_trans with (2 ^ 1100); [apply Z.pow_lt_mono_r; lia|].
  apply Z.le_trans with (10 ^ 1100); [apply Z.pow_le_mono_l; lia|apply Z.pow_le_mono_r; lia].
Qed.
Lemma rounded_huge s x x' y : (bpow radix2 1024 <= nearest x)%R -> (bpow radix2 1024 <= nearest x')%R -> Rounded s x y -> Rounded s x' y.
Proof. intros H H' [HS [(Hl & _)|(_ & E)]]; [lra|]. split; [exact HS|]. now right. Qed.
Lemma rounded_eq s x x' y : nearest x = nearest x' -> Rounded s x y -> Rounded s x' y.
Proof. intros E. unfold Rounded. now rewrite E. Qed.

(** ** Digits *)
Lemma span_digits_iff s ds rest : span_digits s = (ds, rest) <-> s = ds ++ rest /\ Forall digit ds /\ no_digit rest.
Proof.
  revert ds rest. induction s as [|b s IH]; intros ds rest; cbn [span_digits].
  - split; [intros H; injection H as <- <-; repeat constructor|]. intros (E & _). symmetry in E. apply app_eq_nil in E as [-> ->]. reflexivity.
  - destruct (is_digit b) eqn:Eb.
    + destruct (span_digits s) as [ds' r] eqn:Es. destruct (proj1 (IH ds' r) eq_refl) as (E & D & N). split.
      * intros H. injection H as <- <-. split; [now rewrite E|]. split; [|exact N]. constructor; [now apply is_digit_iff|exact D].
      * intros (E' & D' & N'). destruct ds as [|d ds]; cbn [app] in E'; [subst rest; cbn in N'; congruence|]. injection E' as <- E'. inversion D' as [|? ? D1 D2]; subst.
        assert (H : (ds', r) = (ds, rest)) by (apply IH; auto). now injection H as <- <-.
    + split; [intros H; injection H as <- <-; split; [reflexivity|split; [constructor|exact Eb]]|]. intros (E' & D' & N'). destruct ds as [|d ds]; cbn [app] in E'; [now subst|].
      injection E' as <- E'. inversion D' as [|? ? D1 D2]; subst. apply is_digit_iff in D1. congruence.
Qed.
Lemma mantissa_dfold ds : mantissa ds = dfold ds 0.
Proof. reflexivity. Qed.
(** The exponent is right unless it is very large. *)
Lemma exponent_of ds : Forall digit ds -> exponent ds = dfold ds 0 \/ 0x10000 <= exponent ds <= dfold ds 0.
Proof.
  unfold exponent, dfold. induction ds as [|d ds IH] using rev_ind; intros H; [now left|]. apply Forall_app in H as [H Hd]. inversion Hd as [|? ? Hd1 _]; subst. apply digit_val_range in Hd1.
  rewrite !fold_left_app. cbn [fold_left]. specialize (IH H). set (a := fold_left _ ds 0) in *. set (b := fold_left _ ds 0) in *. assert (Hb : 0 <= b) by (assert (R := dfold_range H); unfold dfold in R; fold b in R; lia).
  destruct (Z.ltb_spec a 0x10000) as [Ha|Ha]; [|right; lia]. left. lia.
Qed.

(** ** The parts of a number *)
(** What is read from the power. *)
Definition power_read (power : bytes) (x : Z) : Prop :=
  power = [] /\ x = 0 \/
  exists e sign ds negative, power = e :: sign ++ ds /\ (e = x65 \/ e = x45) /\ Sign sign negative /\ ds <> [] /\ Forall digit ds /\
    x = if negative then - exponent ds else exponent ds.
Definition pointed (point part : bytes) : Prop := point = [] /\ part = [] \/ point = x2e :: part.
Lemma Byte_eqb_eq a b : Byte.eqb a b = true <-> a = b.
Proof. destruct (byte_eqb_spec a b); split; congruence. Qed.
Lemma is_e_iff b : is_e b = true <-> b = x65 \/ b = x45.
Proof. unfold is_e. rewrite orb_true_iff, !Byte_eqb_eq. reflexivity. Qed.
Lemma no_sign d : digit d -> Byte.eqb d x2d = false /\ Byte.eqb d x2b = false /\ Byte.eqb d x2e = false /\ is_e d = false.
Proof.
  unfold digit. intros H. repeat split.
  1-3: destruct (Byte.eqb d _) eqn:E; [|reflexivity]; apply Byte_eqb_eq in E; subst d; vm_compute in H; destruct H as [H1 H2]; congruence.
  destruct (is_e d) eqn:E; [|reflexivity]. apply is_e_iff in E as [-> | ->]; vm_compute in H; destruct H as [H1 H2]; congruence.
Qed.
Lemma sign_read (sign ds rest : bytes) negative (s : bytes) : s = sign ++ ds ++ rest -> Sign sign negative -> ds <> [] -> Forall digit ds ->
  match s with
  | b :: s' => if Byte.eqb b "-" then (true, s') else if Byte.eqb b "+" then (false, s') else (false, s)
  | [] => (false, [])
  end = (negative, ds ++ rest).
Proof.
  intros -> HS Hn HD. destruct HS; try reflexivity. cbn [app]. destruct ds as [|d ds]; [easy|]. inversion HD as [|? ? H1 _]; subst. destruct (no_sign H1) as (E1 & E2 & _). cbn [app]. now rewrite E1, E2.
Qed.
Lemma scientific_iff s e rest : parse_scientific s = Some (e, rest) <->
  exists sign ds negative, s = sign ++ ds ++ rest /\ Sign sign negative /\ ds <> [] /\ Forall digit ds /\ no_digit rest /\ e = if negative then - exponent ds else exponent ds.
Proof.
  unfold parse_scientific. split.
  - intros H. assert (HX : exists sign s1 negative, s = sign ++ s1 /\ Sign sign negative /\
      (let (ds, rest) := span_digits s1 in match ds with [] => None | _ => Some (if negative then - exponent ds else exponent ds, rest) end) = Some (e, rest)).
    { destruct s as [|b s]; [exists [], [], false; repeat split; [constructor|exact H]|].
      destruct (Byte.eqb b "-") eqn:E1; [apply Byte_eqb_eq in E1; subst b; exists [x2d], s, true; repeat split; [constructor|exact H]|].
      destruct (Byte.eqb b "+") eqn:E2; [apply Byte_eqb_eq in E2; subst b; exists [x2b], s, false; repeat split; [constructor|exact H]|].
      exists [], (b :: s), false. repeat split; [constructor|exact H]. }
    destruct HX as (sign & s1 & negative & -> & HS & H1). destruct (span_digits s1) as [ds r] eqn:Es. apply span_digits_iff in Es as (-> & HD & HN).
    destruct ds as [|d ds]; [discriminate|]. injection H1 as <- <-. exists sign, (d :: ds), negative. repeat split; auto. discriminate.
  - intros (sign & ds & negative & Es0 & HS & Hn & HD & HN & ->). assert (E := @sign_read sign ds rest negative s Es0 HS Hn HD).
    rewrite E. assert (Es : span_digits (ds ++ rest) = (ds, rest)) by (apply span_digits_iff; auto). rewrite Es. destruct ds; [easy|reflexivity].
Qed.
Lemma power_no_digit power x : power_read power x -> no_digit power.
Proof. intros [[-> _]|(e & sign & ds & negative & -> & He & _)]; [exact I|]. destruct He as [-> | ->]; reflexivity. Qed.
Lemma parse_number_iff s m e : parse_number s = Some (m, e) <->
  exists whole point part power x, s = whole ++ point ++ power /\ pointed point part /\ whole ++ part <> [] /\ Forall digit (whole ++ part) /\ power_read power x /\
    m = dfold (whole ++ part) 0 /\ e = x - len part.
Proof.
  unfold parse_number. split.
  - unfold after_point. destruct (span_digits s) as [ip s1] eqn:E1. apply span_digits_iff in E1 as (-> & D1 & N1).
    intros H. assert (HX : exists point part s2, s1 = point ++ s2 /\ pointed point part /\ Forall digit part /\
      match ip ++ part with [] => None | _ => match s2 with [] => Some (mantissa (ip ++ part), - Z.of_nat (List.length part))
        | b :: s3 => if is_e b then match parse_scientific s3 with Some (e, []) => Some (mantissa (ip ++ part), - Z.of_nat (List.length part) + e) | _ => None end else None end end = Some (m, e)).
    { destruct s1 as [|b s1]; [exists [], [], []; split; [reflexivity|split; [now left|split; [constructor|]]]|].
      - destruct (ip ++ []); exact H.
      - destruct (Byte.eqb b ".") eqn:Eb.
        + apply Byte_eqb_eq in Eb. subst b. destruct (span_digits s1) as [fp s2] eqn:E2. apply span_digits_iff in E2 as (-> & D2 & N2). exists (x2e :: fp), fp, s2. split; [reflexivity|]. split; [now right|]. split; [exact D2|].
          destruct (ip ++ fp); exact H.
        + exists [], [], (b :: s1). split; [reflexivity|]. split; [now left|]. split; [constructor|]. destruct (ip ++ []); exact H. }
    clear H. destruct HX as (point & part & s2 & -> & HP & D2 & H). assert (Hne : ip ++ part <> []) by (destruct (ip ++ part); [discriminate|easy]).
    assert (H' : match s2 with [] => Some (mantissa (ip ++ part), - Z.of_nat (List.length part))
        | b :: s3 => if is_e b then match parse_scientific s3 with Some (e, []) => Some (mantissa (ip ++ part), - Z.of_nat (List.length part) + e) | _ => None end else None end = Some (m, e)) by (destruct (ip ++ part); [easy|exact H]).
    clear H. assert (DA : Forall digit (ip ++ part)) by (apply Forall_app; auto).
    destruct s2 as [|b s3].
    + injection H' as <- <-. exists ip, point, part, [], 0. split; [reflexivity|]. split; [exact HP|]. split; [exact Hne|]. split; [exact DA|]. split; [now left|]. split; [reflexivity|]. unfold len. lia.
    + destruct (is_e b) eqn:Eb; [|discriminate]. destruct (parse_scientific s3) as [[x [|]]|] eqn:Ep; try discriminate. injection H' as <- <-. apply scientific_iff in Ep as (sign & ds & negative & -> & HS & Hn & HD & _ & Ex).
      exists ip, point, part, (b :: sign ++ ds), x. rewrite app_nil_r. split; [reflexivity|]. split; [exact HP|]. split; [exact Hne|]. split; [exact DA|]. split.
      * right. exists b, sign, ds, negative. repeat split; auto. now apply is_e_iff.
      * split; [reflexivity|]. unfold len. lia.
  - intros (whole & point & part & power & x & -> & HP & Hne & DA & HX & -> & ->). apply Forall_app in DA as [D1 D2]. assert (HN := power_no_digit HX).
    assert (E1 : span_digits (whole ++ point ++ power) = (whole, point ++ power)). { apply span_digits_iff. split; [reflexivity|]. split; [exact D1|]. destruct HP as [[-> _]| ->]; [exact HN|reflexivity]. }
    rewrite E1. assert (E2 : after_point (point ++ power) = (part, power)).
    { unfold after_point. destruct HP as [[-> ->]| ->]; cbn [app].
      - destruct power as [|b power]; [reflexivity|]. destruct HX as [[? _]|(e & sign & ds & negative & E & He & _)]; [discriminate|]. injection E as -> _. destruct He as [-> | ->]; reflexivity.
      - cbn [Byte.eqb]. apply span_digits_iff. auto. }
    rewrite E2. destruct (whole ++ part) as [|d0 ds0]; [easy|].
    destruct HX as [[-> ->]|(e & sign & ds & negative & -> & He & HS & Hn & HD & ->)]; [now rewrite mantissa_dfold|].
    rewrite (proj2 (is_e_iff e) He). assert (E : parse_scientific (sign ++ ds) = Some (if negative then - exponent ds else exponent ds, [])).
    { apply scientific_iff. exists sign, ds, negative. rewrite app_nil_r. cbn. auto 8. }
    rewrite E, mantissa_dfold. unfold len. do 2 f_equal. lia.
Qed.

(** ** Words *)
Lemma letter_iff u l b : In (u, l) [("I", "i"); ("N", "n"); ("F", "f"); ("T", "t"); ("Y", "y"); ("A", "a")]%byte -> (masked b =? bN u)%N = true <-> Letter l b.
Proof.
  intros H. cbn [In] in H. unfold Letter.
  repeat match type of H with _ \/ _ => destruct H as [H|H] end; try contradiction; injection H as <- <-;
    destruct b; vm_compute; (split; [intros E; first [discriminate E|now left|now right]|intros [E|E]; first [discriminate E|reflexivity]]).
Qed.
Lemma is_word_iff s w w' : Forall2 (fun u l => In (u, l) [("I", "i"); ("N", "n"); ("F", "f"); ("T", "t"); ("Y", "y"); ("A", "a")]%byte) (B w) (B w') ->
  is_word s w = true <-> Forall2 Letter (B w') s.
Proof.
  unfold is_word. intros H. revert s. induction H as [|u l us ls H1 _ IH]; intros s.
  - destruct s as [|b s]; cbn; [split; [constructor|reflexivity]|]. split; [discriminate|intros E; inversion E].
  - destruct s as [|b s]; cbn; [split; [discriminate|intros E; inversion E]|]. split.
    + intros E. apply andb_true_iff in E as [E1 E2]. apply andb_true_iff in E2 as [E2 E3]. constructor; [now apply (letter_iff _ H1)|]. apply IH. apply andb_true_iff. auto.
    + intros E. inversion E as [|? ? ? ? E1 E2]; subst. apply IH in E2. apply andb_true_iff in E2 as [E2 E3]. apply andb_true_iff. split; [exact E2|]. apply andb_true_iff. split; [|exact E3]. now apply (letter_iff _ H1).
Qed.
Local Ltac word := intros; apply is_word_iff; repeat (constructor; [cbn; tauto|]); constructor.
Lemma word_inf s : is_word s "INF" = true <-> Forall2 Letter (B "inf") s.
Proof. word. Qed.
Lemma word_infinity s : is_word s "INFINITY" = true <-> Forall2 Letter (B "infinity") s.
Proof. word. Qed.
Lemma word_nan s : is_word s "NAN" = true <-> Forall2 Letter (B "nan") s.
Proof. word. Qed.
Definition letters (s : bytes) : Prop := match s with b :: _ => (0x41 <= bN b)%N | [] => False end.
Lemma word_letters w s : In w ["inf"; "infinity"; "nan"]%string -> Forall2 Letter (B w) s -> letters s.
Proof.
  intros Hw H. assert (HX : exists l ls, B w = l :: ls /\ (0x61 <= bN l)%N) by (cbn [In] in Hw; destruct Hw as [<-|[<-|[<-|[]]]]; eexists; eexists; (split; [reflexivity|vm_compute; discriminate])).
  destruct HX as (l & ls & E & Hl). rewrite E in H. inversion H as [|? b ? ? H1 _]; subst. cbn. unfold bN in *. destruct H1 as [->|H1]; lia.
Qed.

(** ** The sign *)
Definition unsigned (t : bytes) : Prop := match t with b :: _ => b <> x2d /\ b <> x2b | [] => False end.
Definition parse_unsigned (minus : bool) (t : bytes) : option f64 :=
  match parse_number t with
  | Some (m, e) => Some (to_f64 minus m e)
  | None => option_map (if minus then fneg else fun x => x) (parse_inf_nan t)
  end.
Lemma parse_signed sign t minus : Sign sign minus -> (unsigned t \/ sign <> []) -> parse_f64 (sign ++ t) = parse_unsigned minus t.
Proof.
  intros HS HU. unfold parse_f64, parse_unsigned. destruct HS; cbn [app].
  - destruct HU as [HU|HU]; [|easy]. destruct t as [|b t]; [contradiction|]. destruct HU as [H1 H2]. destruct (byte_eqb_spec b "-") as [->|_]; [easy|]. destruct (byte_eqb_spec b "+") as [->|_]; [easy|]. reflexivity.
  - destruct t as [|b t]; reflexivity.
  - destruct t as [|b t]; reflexivity.
Qed.
Lemma signed_split s : s = [] \/ exists sign t minus, s = sign ++ t /\ Sign sign minus /\ (unsigned t \/ sign <> []).
Proof.
  destruct s as [|b s]; [now left|right]. destruct (byte_eqb_spec b x2d) as [->|H1]; [exists [x2d], s, true; split; [reflexivity|split; [constructor|now right]]|].
  destruct (byte_eqb_spec b x2b) as [->|H2]; [exists [x2b], s, false; split; [reflexivity|split; [constructor|now right]]|].
  exists [], (b :: s), false. split; [reflexivity|]. split; [constructor|]. left. now split.
Qed.
Lemma number_head t m e : parse_number t = Some (m, e) -> match t with b :: _ => digit b \/ b = x2e | [] => False end.
Proof.
  intros H. apply parse_number_iff in H as (whole & point & part & power & x & -> & HP & Hne & HD & _). destruct whole as [|b whole].
  - destruct HP as [[-> ->]| ->]; [easy|]. now right.
  - cbn [app] in *. left. now inversion HD.
Qed.
Lemma number_unsigned t m e : parse_number t = Some (m, e) -> unsigned t.
Proof.
  intros H. apply number_head in H. destruct t as [|b t]; [exact H|]. destruct H as [H| ->]; [|easy]. destruct (no_sign H) as (E1 & E2 & _). split; intros ->; discriminate.
Qed.
Lemma letters_unsigned t : letters t -> unsigned t.
Proof. destruct t as [|b t]; cbn; [easy|]. intros H. split; intros ->; vm_compute in H; now apply H. Qed.
Lemma letters_no_number t : letters t -> parse_number t = None.
Proof.
  intros H. destruct (parse_number t) as [[m e]|] eqn:E; [|reflexivity]. apply number_head in E. destruct t as [|b t]; [easy|]. cbn in H. unfold digit, bN in *. destruct E as [E| ->]; [lia|]. vm_compute in H. now destruct H.
Qed.

(** ** Decimals *)
Lemma decimal_read s minus c k : Decimal_text s minus c k -> 0 <= c < 10 ^ len s /\ exists k', parse_f64 s = Some (to_f64 minus c k') /\
  (k' = k \/ 0x10000 - len s <= k' /\ 0x10000 - len s <= k \/ k' <= - 0x10000 /\ k <= - 0x10000).
Proof.
  intros (sign & whole & point & part & power & x & -> & HS & HP & Hne & HN & HX & ->). apply numeral_iff in HN as [HD ->].
  assert (Hl : 0 <= len part /\ len part <= len (sign ++ whole ++ point ++ power) /\ len (whole ++ part) <= len (sign ++ whole ++ point ++ power)).
  { rewrite !len_app. assert (H1 := len_pos sign). assert (H2 := len_pos whole). assert (H3 := len_pos power). assert (H4 := len_pos part). destruct HP as [[-> ->]| ->]; [unfold len in *; cbn; lia|rewrite len_cons; lia]. }
  set (L := len (sign ++ whole ++ point ++ power)) in *. assert (R := dfold_range HD). split.
  { split; [apply R|]. eapply Z.lt_le_trans; [apply R|]. apply Z.pow_le_mono_r; lia. }
  assert (HX' : exists x', power_read power x' /\ (x' = x \/ 0x10000 <= x' <= x \/ x <= x' <= - 0x10000)).
  { destruct HX as [[-> ->]|(e & sign' & ds & negative & n & -> & He & HS' & Hn & HN & ->)]; [exists 0; split; [now left|now left]|].
    apply numeral_iff in HN as [HD' ->]. exists (if negative then - exponent ds else exponent ds). split; [right; exists e, sign', ds, negative; auto 8|].
    destruct (exponent_of HD') as [->|H]; [now left|]. destruct negative; lia. }
  destruct HX' as (x' & HX' & HC). assert (E : parse_number (whole ++ point ++ power) = Some (dfold (whole ++ part) 0, x' - len part)).
  { apply parse_number_iff. exists whole, point, part, power, x'. auto 8. }
  exists (x' - len part). split.
  - rewrite (@parse_signed sign (whole ++ point ++ power) minus HS); [|left; now apply number_unsigned in E]. unfold parse_unsigned. now rewrite E.
  - change (Z.of_nat (List.length part)) with (len part). lia.
Qed.
Lemma number_decimal sign minus t m e : Sign sign minus -> parse_number t = Some (m, e) -> exists k, Decimal_text (sign ++ t) minus m k.
Proof.
  intros HS H. apply parse_number_iff in H as (whole & point & part & power & x & -> & HP & Hne & HD & HX & -> & ->).
  assert (HX' : exists x', power = [] /\ x' = 0%Z \/ exists e sign' ds negative n, power = e :: sign' ++ ds /\ (e = x65 \/ e = x45) /\ Sign sign' negative /\ ds <> [] /\ Numeral ds n /\ x' = if negative then (- n)%Z else n).
  { destruct HX as [[-> ->]|(e & sign' & ds & negative & -> & He & HS' & Hn & HD' & ->)]; [exists 0; now left|]. exists (if negative then - dfold ds 0 else dfold ds 0). right. exists e, sign', ds, negative, (dfold ds 0).
    repeat (split; [first [reflexivity|assumption]|]). split; [now apply numeral_iff|reflexivity]. }
  destruct HX' as (x' & HX'). exists (x' - Z.of_nat (List.length part)). exists sign, whole, point, part, power, x'. repeat (split; [first [reflexivity|assumption]|]). split; [now apply numeral_iff|]. split; [exact HX'|reflexivity].
Qed.
