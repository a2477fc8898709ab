(** C70: the numbers of the command line. *)
From Coq Require Import ZArith Reals Bool Lia Lra.
From Flocq Require Import Core IEEE754.BinarySingleNaN.
From Coq.Strings Require Import String.
From Verif Require Import Base BaseProofs F64 F64Proofs FloatErr Utf8 SpecUtf8 SpecJson Json SpecNum JsonNum RoundProofs ShortestProofs PartsProofs JsonNumProofs PrintProofs CodecProofs PropNum.
From Verif Require Import Processor Sort Cli SpecCli CliProofs PropCli Args SpecArgs PropArgs PropMain SpecFloatText RustFloat FloatTextProofs.
Set Implicit Arguments.
Local Open Scope R_scope.
Notation length := List.length (only parsing).
Local Ltac splits := repeat match goal with |- _ /\ _ => split end.

Definition words : list string := ["inf"; "infinity"; "nan"]%string.

(** ** Which texts are numbers *)
Theorem C70_syntax : forall s, (exists x, parse_f64 s = Some x) <->
  (exists minus c k, Decimal_text s minus c k) \/ (exists word minus, In word words /\ Word_text word s minus).
Proof.
  intros s. split.
  - intros [x H]. destruct (signed_split s) as [->|(sign & t & minus & -> & HS & HU)]; [discriminate|]. rewrite (parse_signed t HS HU) in H. unfold parse_unsigned in H.
    destruct (parse_number t) as [[m e]|] eqn:E; [left; destruct (number_decimal t HS E) as [k Hk]; eauto|]. right.
    unfold parse_inf_nan in H. destruct (is_word t "INF") eqn:E1; [exists "inf"%string, minus; split; [cbn; auto|]; exists sign, t; split; [reflexivity|]; split; [exact HS|]; now apply word_inf|].
    destruct (is_word t "INFINITY") eqn:E2; [exists "infinity"%string, minus; split; [cbn; auto|]; exists sign, t; split; [reflexivity|]; split; [exact HS|]; now apply word_infinity|].
    destruct (is_word t "NAN") eqn:E3; [exists "nan"%string, minus; split; [cbn; auto|]; exists sign, t; split; [reflexivity|]; split; [exact HS|]; now apply word_nan|discriminate].
  - intros [(minus & c & k & H)|(word & minus & Hw & sign & t & -> & HS & H)]; [destruct (decimal_read H) as (_ & k' & E & _); eauto|].
    assert (HL := word_letters Hw H). rewrite (parse_signed t HS (or_introl (letters_unsigned t HL))). unfold parse_unsigned. rewrite (letters_no_number t HL). unfold parse_inf_nan.
    cbn [words In] in Hw. destruct Hw as [<-|[<-|[<-|[]]]].
    + apply word_inf in H. rewrite H. cbn. eauto.
    + apply word_infinity in H. rewrite H, orb_true_r. cbn. eauto.
    + apply word_nan in H. rewrite H. destruct (is_word t "INF" || is_word t "INFINITY"); cbn; eauto.
Qed.
Print Assumptions C70_syntax.

(** ** What they mean *)
(** A decimal is read as the nearest number, with its sign. *)
Theorem C70_decimal : forall s minus c k, Decimal_text s minus c k -> (Z.of_nat (length s) <= 64000)%Z ->
  exists y, parse_f64 s = Some y /\ Rounded minus (decimal c k) y.
Proof.
  intros s minus c k H HL. destruct (decimal_read H) as (Hc & k' & E & HK). exists (to_f64 minus c k'). split; [exact E|]. assert (HR := @to_f64_rounded minus c k' (proj1 Hc)). fold (len s) in HL. assert (HL0 := len_pos s).
  destruct HK as [->|[[K1 K2]|[K1 K2]]]; [exact HR| |].
  - destruct (Z.eq_dec c 0) as [->|Hc0].
    + apply rounded_eq with (2 := HR). f_equal. unfold decimal. ring.
    + apply rounded_huge with (3 := HR); apply decimal_huge; lia.
  - apply rounded_eq with (2 := HR). rewrite !(@decimal_tiny c _ (len s)) by lia. reflexivity.
Qed.
Print Assumptions C70_decimal.
Lemma words_differ t : is_word t "INF" = true -> is_word t "NAN" = true -> False.
Proof.
  unfold is_word. intros H1 H2. apply andb_true_iff in H1 as [_ H1]. apply andb_true_iff in H2 as [H0 H2]. destruct t as [|b t]; [discriminate|]. cbn [B list_byte_of_string combine forallb] in H1, H2.
  cbn in H1, H2. apply andb_true_iff in H1 as [H1 _]. apply andb_true_iff in H2 as [H2 _]. apply N.eqb_eq in H1, H2. rewrite H1 in H2. discriminate.
Qed.
(** A word is read as what it says, whatever the cases of its letters. *)
Theorem C70_word : forall word s minus, In word words -> Word_text word s minus ->
  parse_f64 s = Some (if String.eqb word "nan" then B754_nan else B754_infinity minus).
Proof.
  intros word s minus Hw (sign & t & -> & HS & H). assert (HL := word_letters Hw H). rewrite (parse_signed t HS (or_introl (letters_unsigned t HL))). unfold parse_unsigned. rewrite (letters_no_number t HL). unfold parse_inf_nan.
  cbn [words In] in Hw. destruct Hw as [<-|[<-|[<-|[]]]].
  - apply word_inf in H. rewrite H. now destruct minus.
  - apply word_infinity in H. rewrite H, orb_true_r. now destruct minus.
  - apply word_nan in H. destruct (is_word t "INF") eqn:E1; [exfalso; exact (words_differ t E1 H)|].
    destruct (is_word t "INFINITY") eqn:E2; [unfold is_word in E2, H; apply andb_true_iff in E2 as [E2 _]; apply andb_true_iff in H as [H _]; apply Nat.eqb_eq in E2, H; rewrite E2 in H; discriminate|].
    rewrite H. now destruct minus.
Qed.
Print Assumptions C70_word.

(** No other number is closer. *)
Theorem C70_closest : forall s minus c k (y z : f64), Decimal_text s minus c k -> (Z.of_nat (length s) <= 64000)%Z -> parse_f64 s = Some y -> is_finite y = true -> is_finite z = true ->
  let x := if minus then - decimal c k else decimal c k in Rabs (B2R y - x) <= Rabs (B2R z - x).
Proof.
  intros s minus c k y z H HL E Fy Fz x. destruct (C70_decimal H HL) as (y' & E' & HS & HR). rewrite E in E'. injection E' as <-. destruct HR as [(_ & _ & HR)|(_ & ->)]; [|discriminate].
  assert (Ey : B2R y = nearest x). { rewrite (sign_abs y Fy), HS, HR. unfold x. destruct minus; [now rewrite nearest_opp|reflexivity]. }
  rewrite Ey. apply nearest_pt. exact (generic_format_B2R _ _ z).
Qed.
Print Assumptions C70_closest.
Lemma rounded_unique minus x y y' : Rounded minus x y -> Rounded minus x y' -> y = y'.
Proof.
  intros [S HR] [S' HR']. destruct HR as [(L & F & R)|(L & ->)]; destruct HR' as [(L' & F' & R')|(L' & ->)]; [|lra|lra|reflexivity].
  apply B2R_Bsign_inj; [exact F|exact F'| |congruence]. rewrite (sign_abs y F), (sign_abs y' F'), S, S', R, R'. reflexivity.
Qed.
(** Texts that say the same number are the same to the program. *)
Theorem C70_same : forall s minus c k s' c' k', Decimal_text s minus c k -> Decimal_text s' minus c' k' -> (Z.of_nat (length s) <= 64000)%Z -> (Z.of_nat (length s') <= 64000)%Z ->
  decimal c k = decimal c' k' -> parse_f64 s = parse_f64 s'.
Proof.
  intros s minus c k s' c' k' H H' HL HL' E. destruct (C70_decimal H HL) as (y & -> & HR). destruct (C70_decimal H' HL') as (y' & -> & HR'). rewrite E in HR. now rewrite (rounded_unique HR HR').
Qed.
Print Assumptions C70_same.
(** The order of decimals is kept. *)
Lemma rounded_sign minus x y : Rounded minus x y -> 0 <= x -> if minus then fleb y f0 = true else fleb f0 y = true.
Proof.
  intros [S HR] Hx. assert (HN := nearest_ge_0 Hx). destruct HR as [(L & F & R)|(L & ->)]; [|destruct minus; reflexivity].
  assert (E := sign_abs y F). rewrite S, R in E. destruct minus; (rewrite fleb_finite by (assumption || reflexivity)); apply Rle_bool_true; rewrite E; cbn; lra.
Qed.
Lemma rounded_order x x' y y' : Rounded false x y -> Rounded false x' y' -> x <= x' -> fleb y y' = true.
Proof.
  intros [S HR] [S' HR'] Hxx. assert (HN := nearest_le Hxx). destruct HR as [(L & F & R)|(L & ->)]; destruct HR' as [(L' & F' & R')|(L' & ->)]; [| | lra|reflexivity].
  - rewrite fleb_finite by assumption. apply Rle_bool_true. rewrite (sign_abs y F), (sign_abs y' F'), S, S', R, R'. exact HN.
  - apply fleb_inf_r. now destruct y.
Qed.
Lemma rounded_order_neg x x' y y' : Rounded true x y -> Rounded true x' y' -> x' <= x -> fleb y y' = true.
Proof.
  intros [S HR] [S' HR'] Hxx. assert (HN := nearest_le Hxx). destruct HR as [(L & F & R)|(L & ->)]; destruct HR' as [(L' & F' & R')|(L' & ->)]; [|lra| |reflexivity].
  - rewrite fleb_finite by assumption. apply Rle_bool_true. rewrite (sign_abs y F), (sign_abs y' F'), S, S', R, R'. lra.
  - apply (fleb_ninf_l y'). now destruct y'.
Qed.
Definition signed (minus : bool) (x : R) : R := if minus then - x else x.
Theorem C70_order : forall s minus c k s' minus' c' k' y y', Decimal_text s minus c k -> Decimal_text s' minus' c' k' -> (Z.of_nat (length s) <= 64000)%Z -> (Z.of_nat (length s') <= 64000)%Z ->
  parse_f64 s = Some y -> parse_f64 s' = Some y' -> signed minus (decimal c k) <= signed minus' (decimal c' k') -> fleb y y' = true.
Proof.
  intros s minus c k s' minus' c' k' y y' H H' HL HL' E E' HV. assert (Hc := decimal_nonneg k (proj1 (proj1 (decimal_read H)))). assert (Hc' := decimal_nonneg k' (proj1 (proj1 (decimal_read H')))).
  destruct (C70_decimal H HL) as (z & Ez & HR). destruct (C70_decimal H' HL') as (z' & Ez' & HR'). rewrite E in Ez. injection Ez as <-. rewrite E' in Ez'. injection Ez' as <-.
  destruct minus, minus'; cbn [signed] in HV.
  - apply rounded_order_neg with (1 := HR) (2 := HR'). lra.
  - apply fleb_trans with f0; [exact (rounded_sign HR Hc)|exact (rounded_sign HR' Hc')].
  - assert (Z1 : decimal c k = 0) by lra. assert (Z2 : decimal c' k' = 0) by lra. rewrite Z1 in HR. rewrite Z2 in HR'.
    assert (A : y = B754_zero false) by (apply (rounded_unique HR); split; [reflexivity|]; left; rewrite nearest_0; split; [apply bpow_gt_0|]; split; [reflexivity|apply Rabs_R0]).
    assert (A' : y' = B754_zero true) by (apply (rounded_unique HR'); split; [reflexivity|]; left; rewrite nearest_0; split; [apply bpow_gt_0|]; split; [reflexivity|apply Rabs_R0]).
    subst. reflexivity.
  - apply rounded_order with (1 := HR) (2 := HR'). exact HV.
Qed.
Print Assumptions C70_order.

(** ** Next to the numbers of files *)
(** The text that is printed for a number is read as that number. *)
Lemma json_text tok minus c k : SpecNum.Means tok minus c k -> Decimal_text tok minus c k.
Proof.
  intros (ip & ds & ep & x & -> & [Hne _] & (fs & HD & HN & ->) & HE). exists (if minus then [x2d] else []), ip, ds, fs, ep, x.
  split; [reflexivity|]. split; [destruct minus; constructor|]. split; [destruct HD as [HD|[-> _]]; [now left|now right]|]. split; [intros E; apply app_eq_nil in E as [E _]; contradiction|]. split; [exact HN|]. split; [|reflexivity].
  destruct HE as [HE|(e & s & es & n & -> & He & Hn & HNe & HS)]; [now left|right]. destruct HS as [[-> ->]|[[-> ->]|[-> ->]]].
  - exists e, [], es, false, n. repeat (split; [first [reflexivity|assumption|constructor]|]). reflexivity.
  - exists e, [x2b], es, false, n. repeat (split; [first [reflexivity|assumption|constructor]|]). reflexivity.
  - exists e, [x2d], es, true, n. repeat (split; [first [reflexivity|assumption|constructor]|]). reflexivity.
Qed.
Lemma print_short x : is_finite x = true -> (Z.of_nat (length (print_num x)) <= 100)%Z.
Proof.
  intros Hf. destruct x as [s|s| |s m e H]; try discriminate; [destruct s; vm_compute; discriminate|]. destruct (bounded_canon m e H) as [Hc He].
  destruct (printed Hc He) as (c & k & n & c' & k' & o & Es & Hn & Hd & Hk & _). rewrite print_finite. unfold text. rewrite Es. fold (len (minus_text s ++ layout c k)). rewrite len_app.
  assert (L := @dec_len c n Hd ltac:(lia)). assert (LL := @layout_short c k ltac:(lia) ltac:(lia)). assert (len (minus_text s) <= 1)%Z by (destruct s; vm_compute; discriminate). lia.
Qed.
Theorem C70_printed : forall x, is_finite x = true -> parse_f64 (print_num x) = Some x.
Proof.
  intros x Hf. destruct (C67_prints x Hf) as (_ & c & k & HM & HC). apply json_text in HM. assert (HL := print_short x Hf). destruct (C70_decimal HM ltac:(lia)) as (y & -> & HR). f_equal. apply (rounded_unique HR). split; [reflexivity|]. left.
  assert (E : nearest (decimal c k) = Rabs (B2R x)).
  { destruct (Req_bool_spec (B2R x) 0) as [E0|E0]; [|destruct HC as (c' & k' & -> & n & _ & HN & _); exact HN]. subst c. rewrite E0, Rabs_R0. assert (E : decimal 0 k = 0) by (unfold decimal; ring). rewrite E. apply nearest_0. }
  rewrite E. split; [|split; [exact Hf|reflexivity]]. exact (abs_B2R_lt_emax _ _ x).
Qed.
Print Assumptions C70_printed.
(** The same text can be another number in a file: there it is not always rounded to the nearest. *)
Theorem C70_as_in_files_refuted : ~ forall s x, SpecJson.Number s -> read_num s = Some x -> parse_f64 s = Some x.
Proof.
  intros H. destruct (C67_prints score_a eq_refl) as [HN _]. assert (E := C70_printed score_a eq_refl). specialize (H _ (reread score_a) HN). rewrite E in H.
  assert (R : read_num (print_num score_a) = Some (reread score_a)) by (destruct (@reread_of score_a eq_refl) as (y & R & <- & _); exact R). apply H in R. apply (f_equal (fun o => match o with Some y => feqb y score_a | None => true end)) in R. revert R. vm_compute. discriminate.
Qed.
Print Assumptions C70_as_in_files_refuted.
(** The bound on the length can not be left out: .00...01e655360 with 65535 zeros is read as 1. *)
Lemma zeros_text n : Decimal_text (B "." ++ repeat x30 n ++ B "1e655360") false 1 (655360 - Z.of_nat n - 1).
Proof.
  exists [], [], (B "." ++ repeat x30 n ++ B "1"), (repeat x30 n ++ B "1"), (B "e655360"), 655360%Z. split; [cbn [app]; rewrite <- !app_assoc; reflexivity|].
  split; [constructor|]. split; [now right|]. cbn [app]. split; [intros E; apply app_eq_nil in E as [_ E]; discriminate|]. split.
  - apply numeral_iff. split; [apply Forall_app; split; [apply zeros_digit|repeat constructor; vm_compute; discriminate]|]. rewrite dfold_app, zeros_fold, Z.mul_0_l. reflexivity.
  - split; [|rewrite app_length, repeat_length; change (length (B "1")) with 1%nat; lia]. right. exists x65, [], (B "655360"), false, 655360%Z.
    split; [reflexivity|]. split; [now left|]. split; [constructor|]. split; [discriminate|]. split; [|reflexivity]. apply numeral_iff. split; [repeat constructor; vm_compute; discriminate|reflexivity].
Qed.
Definition long_text : bytes := B "." ++ repeat x30 (Z.to_nat 65535) ++ B "1e655360".
Lemma long_read : option_map f_is_infinite (parse_f64 long_text) = Some false.
Proof. vm_compute. reflexivity. Qed.
Lemma long_means : Decimal_text long_text false 1 (655360 - 65536).
Proof. replace (655360 - 65536)%Z with (655360 - Z.of_nat (Z.to_nat 65535) - 1)%Z by lia. apply zeros_text. Qed.
Theorem C70_long_refuted : ~ forall s minus c k, Decimal_text s minus c k -> exists y, parse_f64 s = Some y /\ Rounded minus (decimal c k) y.
Proof.
  intros H. assert (HD := long_means). assert (HX := long_read). generalize dependent long_text. intros t HD HX.
  destruct (H _ _ _ _ HD) as (y & E & _ & [(HL & _)|(_ & Ey)]).
  - assert (A := @decimal_huge 1 (655360 - 65536) ltac:(lia) ltac:(lia)). apply Rlt_not_le in HL. contradiction.
  - rewrite E, Ey in HX. discriminate.
Qed.
Print Assumptions C70_long_refuted.

(** ** On the command line *)
(** The defaults of the manual are read as the numbers of the program, so giving them is leaving them out: C65 without a hypothesis. *)
Local Ltac dec_text whole point part power x c k := exists (@nil byte), (B whole), (B point), (B part), (B power), x; split; [reflexivity|]; split; [constructor|]; split; [first [now left|now right]|]; split; [discriminate|];
  split; [apply numeral_iff; split; [repeat constructor; vm_compute; discriminate|reflexivity]|]; split; [now left|reflexivity].
Lemma reads_fractions : Reads_fractions parse_f64.
Proof.
  assert (G : forall s c k q, Decimal_text (B s) false c k -> (Z.of_nat (length (B s)) <= 64000)%Z -> decimal c k = q -> 0 <= q <= 1 -> exists x, parse_f64 (B s) = Some x /\ Nearest q x).
  { intros s c k q H HL E Hq. destruct (C70_decimal H HL) as (y & Ey & HS & HR). exists y. split; [exact Ey|]. rewrite E in HR.
    assert (H1 : nearest q < bpow radix2 1024). { apply Rle_lt_trans with (nearest 1); [apply nearest_le; lra|]. change 1 with (bpow radix2 0). rewrite F2 by lia. apply bpow_lt. lia. }
    destruct HR as [(_ & F & R)|(A & _)]; [|lra]. split; [exact F|]. rewrite (sign_abs y F), HS, R. reflexivity. }
  unfold Reads_fractions. repeat constructor; cbn [fst snd].
  - apply (G "0.1"%string 1%Z (-1)%Z); [dec_text "0"%string ".1"%string "1"%string ""%string 0%Z 1%Z (-1)%Z|vm_compute; discriminate|unfold decimal; simpl; lra|lra].
  - apply (G "0.01"%string 1%Z (-2)%Z); [dec_text "0"%string ".01"%string "01"%string ""%string 0%Z 1%Z (-2)%Z|vm_compute; discriminate|unfold decimal; simpl; lra|lra].
  - apply (G "0.8"%string 8%Z (-1)%Z); [dec_text "0"%string ".8"%string "8"%string ""%string 0%Z 8%Z (-1)%Z|vm_compute; discriminate|unfold decimal; simpl; lra|lra].
  - apply (G "0.9"%string 9%Z (-1)%Z); [dec_text "0"%string ".9"%string "9"%string ""%string 0%Z 9%Z (-1)%Z|vm_compute; discriminate|unfold decimal; simpl; lra|lra].
Qed.
Theorem C70_defaults : forall fs writable normalize fmt_num num_val regex_new fancy_new exp ln threads s1 s2 fuel name ps long text c o, In (name, long, text) defaults ->
  parse_args parse_f64 (B name :: line ps) = PCommand c ->
  (forall os names t, In (name, os) manual -> In (names, t) os -> In long names -> given names ps = []) ->
  main parse_f64 fs writable normalize fmt_num num_val regex_new fancy_new exp ln threads s1 s2 fuel (B name :: line (ps ++ [(B long, B text)])) o <->
  main parse_f64 fs writable normalize fmt_num num_val regex_new fancy_new exp ln threads s1 s2 fuel (B name :: line ps) o.
Proof. intros. eapply C65_defaults; eauto using reads_fractions. Qed.
Print Assumptions C70_defaults.
(** A source with a proportion that says one is the source without a proportion. *)
Theorem C70_whole : forall fs normalize ps name path text c k, Decimal_text text false c k -> (Z.of_nat (length text) <= 64000)%Z -> decimal c k = 1 ->
  ~ In x3a name -> ~ In x3a path -> ~ In x3a text ->
  load_source fs parse_f64 normalize ps (joined x3a [name; path; text]) = load_source fs parse_f64 normalize ps (joined x3a [name; path]).
Proof.
  intros fs normalize ps name path text c k H HL Hv N1 N2 N3. assert (E : parse_f64 text = Some f1).
  { destruct (C70_decimal H HL) as (y & -> & HR). f_equal. apply (rounded_unique HR). split; [reflexivity|]. left. rewrite Hv. assert (EN : nearest 1 = 1) by (change 1 with (bpow radix2 0); apply F2; lia). rewrite EN. split; [change 1 with (bpow radix2 0); apply bpow_lt; lia|]. split; [reflexivity|].
    destruct (of_Z_exact 1) as [_ E1]; [lia|]. change (f64_of_Z 1) with f1 in E1. rewrite E1. cbn. apply Rabs_R1. }
  unfold load_source. assert (HP : forall l, l <> [] -> Forall (fun p => ~ In x3a p) l -> split_on x3a (joined x3a l) = l) by (intros l H1 H2; apply split_on_Parts; split; auto).
  rewrite !HP by (try discriminate; repeat constructor; assumption). rewrite E. reflexivity.
Qed.
Print Assumptions C70_whole.

(** ** Examples *)
Definition exr_text (s : bytes) : option bytes := option_map print_num (parse_f64 s).
Example C70_example :
  map exr_text (map B ["0.1"; "-13.0"; "+.5"; "5."; "1E+2"; "00012e-1"; "-0"; "1.7976931348623158e308"; "4e-324"; "2e-324"]%string) =
    map (fun s => Some (B s)) ["0.1"; "-13.0"; "0.5"; "5.0"; "100.0"; "1.2"; "-0.0"; "1.7976931348623157e308"; "5e-324"; "0.0"]%string /\
  map parse_f64 (map B ["inf"; "-Infinity"; "NaN"; "1e309"]%string) = [Some finf; Some fninf; Some fnan; Some finf] /\
  map parse_f64 (map B [""; "+"; "."; "-."; "e5"; "1e"; "1e+"; " 1"; "1 "; "1_000"; "0x10"; "1,5"; "infinit"; "--1"; "1f64"]%string) = repeat None 15 /\
  Decimal_text (B "-12.50E+1") true 1250 (-1) /\ Word_text "infinity" (B "-InFinitY") true /\
  load_source exc_fs parse_f64 exc_norm [] (B "a:f:1.000e0") = load_source exc_fs parse_f64 exc_norm [] (B "a:f") /\
  load_source exc_fs parse_f64 exc_norm [] (B "a:f:nan") = Ok (Source (B "a") []) /\ load_source exc_fs parse_f64 exc_norm [] (B "a:f:-3") = Ok (Source (B "a") []) /\
  load_source exc_fs parse_f64 exc_norm [] (B "a:f:50%") = Panic.
Proof.
  split; [vm_compute; reflexivity|]. split; [vm_compute; reflexivity|]. split; [vm_compute; reflexivity|]. split; [|split].
  - exists [x2d], (B "12"), (B ".50"), (B "50"), (B "E+1"), 1%Z. split; [reflexivity|]. split; [constructor|]. split; [now right|]. split; [discriminate|]. split; [apply numeral_iff; split; [repeat constructor; vm_compute; discriminate|reflexivity]|]. split; [|reflexivity].
    right. exists x45, [x2b], (B "1"), false, 1%Z. split; [reflexivity|]. split; [now right|]. split; [constructor|]. split; [discriminate|]. split; [|reflexivity]. apply numeral_iff. split; [repeat constructor; vm_compute; discriminate|reflexivity].
  - exists [x2d], (B "InFinitY"). split; [reflexivity|]. split; [constructor|]. repeat constructor; (now left) || (right; reflexivity).
  - splits; vm_compute; reflexivity.
Qed.
