(** C67: the numbers of a file. *)
From Coq Require Import ZArith Reals Bool Lia Lra.
From Flocq Require Import Core BinarySingleNaN.
From Verif Require Import Base F64 F64Proofs Utf8 SpecUtf8 SpecJson Json Trie Model Processor Tokenizer Serde SpecSerde SpecNum JsonNum RoundProofs TwiceProofs ShortestProofs PartsProofs JsonNumProofs PrintProofs CodecProofs PropSerde.
Set Implicit Arguments.
Local Open Scope R_scope.

(** ** Reading *)
(** Every number of JSON is read as a number next to it, with its sign, or refused as too large. *)
Theorem C67_reads : forall tok minus c k, Means tok minus c k -> (Z.of_nat (length tok) < 2 ^ 30)%Z ->
  match read_num tok with
  | Some f => is_finite f = true /\ Bsign f = minus /\ Rabs (Rabs (B2R f) - decimal c k) <= bpow radix2 (-50) * decimal c k + bpow radix2 (-1074)
  | None => bpow radix2 1024 <= (1 + bpow radix2 (-50)) * decimal c k
  end.
Proof.
  intros tok minus c k HM HL. destruct (read_num_of HM HL) as (o & -> & Hc & Hn & _). assert (U : bpow radix2 (-50) = 8 * u) by (unfold u; simpl; lra). rewrite U. destruct o as [f|]; cbn [option_map nonneg_near] in *.
  - destruct Hn as (r & (F1 & F2 & F3) & Hr & He). destruct minus.
    + unfold fneg. rewrite is_finite_Bopp, B2R_Bopp, Rabs_Ropp, F3, (Rabs_pos_eq r) by exact Hr. split; [exact F1|]. split; [|exact He]. rewrite Bsign_Bopp, F2; [reflexivity|]. destruct f; try reflexivity; discriminate.
    + rewrite F3, (Rabs_pos_eq r) by exact Hr. auto.
  - assert (0 <= u * decimal c k) by (apply Rmult_le_pos; [unfold u; lra|apply decimal_nonneg; exact Hc]). lra.
Qed.
Print Assumptions C67_reads.
(** A decimal of at most 53 bits with an exponent of at most 22 is read as the nearest number. *)
Theorem C67_short_exact : forall tok minus c k, Means tok minus c k -> (Z.of_nat (length tok) < 2 ^ 30)%Z -> (c <= 2 ^ 53)%Z -> (-22 <= k <= 22)%Z ->
  exists f, read_num tok = Some f /\ is_finite f = true /\ Bsign f = minus /\ Rabs (B2R f) = nearest (decimal c k).
Proof.
  intros tok minus c k HM HL Hc Hk. destruct (read_num_of HM HL) as (o & -> & H0 & _ & Ho). destruct (@short_exact c k o ltac:(lia) Hk (Ho ltac:(unfold u64_max; lia) ltac:(lia))) as (f & -> & F1 & F2 & F3).
  assert (Hr : 0 <= nearest (decimal c k)) by (now apply nearest_ge_0, decimal_nonneg). cbn [option_map]. eexists. split; [reflexivity|]. destruct minus.
  - unfold fneg. rewrite is_finite_Bopp, B2R_Bopp, Rabs_Ropp, F3, Rabs_pos_eq by exact Hr. split; [exact F1|]. split; [|reflexivity]. rewrite Bsign_Bopp, F2; [reflexivity|]. destruct f; try reflexivity; discriminate.
  - rewrite F3, Rabs_pos_eq by exact Hr. auto.
Qed.
Print Assumptions C67_short_exact.

(** ** Printing *)
Lemma print_finite s m e H : print_num (B754_finite s m e H) = minus_text s ++ text (Zpos m) e.
Proof. unfold print_num, text. destruct (shortest (Z.pos m) e). destruct s; reflexivity. Qed.
Lemma abs_finite s m e H : Rabs (B2R (B754_finite s m e H : f64)) = num (Zpos m) e.
Proof. simpl. unfold F2R. simpl. rewrite Rabs_mult, (Rabs_pos_eq (bpow _ _)) by apply bpow_ge_0. unfold num. f_equal. rewrite <- abs_IZR. destruct s; reflexivity. Qed.
Lemma sign_abs (z : f64) : is_finite z = true -> B2R z = if Bsign z then - Rabs (B2R z) else Rabs (B2R z).
Proof.
  revert z. intros [s|s| |s m e Hb] Hz; try discriminate; [destruct s; cbn; rewrite Rabs_R0; ring|]. rewrite abs_finite. unfold num. destruct s; cbn; unfold F2R; simpl; [|reflexivity]. change (IZR (Z.neg m)) with (- IZR (Z.pos m)). ring.
Qed.
(** The text of a number is a number of JSON; it has the sign of the number and says the shortest decimal for it. *)
Theorem C67_prints : forall x, is_finite x = true -> Number (print_num x) /\ exists c k, Means (print_num x) (Bsign x) c k /\
  if Req_bool (B2R x) 0 then c = 0%Z else exists c' k', decimal c k = decimal c' k' /\ Shortest (Rabs (B2R x)) c' k'.
Proof.
  intros [s|s| |s m e H] Hf; try discriminate; clear Hf.
  - destruct (@text_of s [x30] [x30] [] 0 0) as [T1 T2]; auto; [repeat constructor; vm_compute; discriminate|]. cbn [B2R Bsign]. rewrite Req_bool_true by reflexivity. split; [destruct s; exact T1|]. exists 0%Z, (0 - len [x30])%Z. split; [destruct s; exact T2|reflexivity].
  - destruct (bounded_canon m e H) as [Hc He]. destruct (printed Hc He) as (c & k & n & c' & k' & o & Es & Hn & Hd & Hk & Hv & Hs & Hx & Hp & Hsame & Hc' & Ho & Ht). rewrite print_finite, abs_finite. unfold text. rewrite Es. destruct (Ht s) as (T1 & T2 & _). split; [exact T1|].
    exists c', k'. split; [exact T2|]. rewrite Req_bool_false. 2: { intros E. assert (Q := @abs_finite s m e H). rewrite E, Rabs_R0 in Q. assert (P := @num_pos (Zpos m) e eq_refl). lra. }
    exists c, k. split; [exact Hsame|]. exists n. assert (P1 := @pow10_pos (n - 1) ltac:(lia)). split; [lia|]. auto.
Qed.
Print Assumptions C67_prints.

(** ** Saving and loading *)
Lemma reread_of x : is_finite x = true -> exists y, read_num (print_num x) = Some y /\ reread x = y /\ is_finite y = true /\ Bsign y = Bsign x /\
  (B2R x = 0 -> y = x) /\ (B2R x <> 0 -> result (Rabs (B2R x)) (Rabs (B2R y))) /\ Rabs (Rabs (B2R y) - Rabs (B2R x)) <= 9 * u * Rabs (B2R x) + 2 * bpow radix2 (-1074).
Proof.
  intros Hf. unfold reread. destruct x as [s|s| |s m e H]; try discriminate.
  - exists (B754_zero s). split; [destruct s; vm_compute; reflexivity|]. split; [destruct s; vm_compute; reflexivity|]. split; [reflexivity|]. split; [reflexivity|]. split; [reflexivity|]. cbn [B2R]. split; [congruence|].
    rewrite Rminus_diag_eq, Rabs_R0 by reflexivity. assert (P := bpow_ge_0 radix2 (-1074)). lra.
  - destruct (bounded_canon m e H) as [Hc He]. destruct (reads_some Hc He) as (r & Hr & H0 & Hb). destruct (Hr s) as (f & E & F1 & F2 & F3). rewrite print_finite, E.
    assert (Hy : exists y : f64, y = (if s then fneg f else f) /\ is_finite y = true /\ Bsign y = s /\ Rabs (B2R y) = r).
    { eexists. split; [reflexivity|]. destruct s; [unfold fneg; rewrite is_finite_Bopp, B2R_Bopp, Rabs_Ropp|]; rewrite F3, (Rabs_pos_eq r) by exact H0; [|auto].
      split; [exact F1|]. split; [|reflexivity]. rewrite Bsign_Bopp, F2; [reflexivity|]. destruct f; try reflexivity; discriminate. }
    destruct Hy as (y & Ey & Y1 & Y2 & Y3). rewrite <- Ey. exists y. split; [reflexivity|]. split; [reflexivity|]. rewrite abs_finite, Y3. split; [exact Y1|]. split; [exact Y2|].
    split; [|split; [|exact Hb]].
    + intros E0. exfalso. assert (Q := @abs_finite s m e H). rewrite E0, Rabs_R0 in Q. assert (P := @num_pos (Zpos m) e eq_refl). lra.
    + intros _. exists (Zpos m), e. auto.
Qed.
(** The text of every finite number can be read again ... *)
Theorem C67_codec : num_codec print_num read_num reread.
Proof. intros x Hf. split; [apply (C67_prints x Hf)|]. destruct (reread_of x Hf) as (y & E & -> & _). exact E. Qed.
Print Assumptions C67_codec.
(** ... and gives a finite number with the same sign, next to it. *)
Theorem C67_close : forall x, is_finite x = true -> is_finite (reread x) = true /\ Bsign (reread x) = Bsign x /\
  Rabs (B2R (reread x) - B2R x) <= bpow radix2 (-49) * Rabs (B2R x) + bpow radix2 (-1073).
Proof.
  intros x Hf. destruct (reread_of x Hf) as (y & _ & -> & H1 & H2 & _ & _ & H3). split; [exact H1|]. split; [exact H2|].
  assert (E1 : bpow radix2 (-49) = 16 * u) by (unfold u; simpl; lra). assert (E2 : bpow radix2 (-1073) = 2 * bpow radix2 (-1074)) by (exact (bpow_plus radix2 1 (-1074))). rewrite E1, E2.
  assert (0 <= u * Rabs (B2R x)) by (apply Rmult_le_pos; [unfold u; lra|apply Rabs_pos]). eapply Rle_trans; [|eapply Rle_trans; [exact H3|lra]]. apply Req_le.
  rewrite (sign_abs y H1), (sign_abs x Hf), H2 at 1. set (a := Rabs (B2R y)). set (b := Rabs (B2R x)). destruct (Bsign x); [|reflexivity]. rewrite <- Rabs_Ropp. f_equal. ring.
Qed.
Print Assumptions C67_close.
(** So every tokenizer with finite scores is loaded again, with these scores. *)
Theorem C67_loads : forall vocab ps sps, Forall unescaped sps -> Forall (fun tk => f_is_finite (st_score tk) = true) vocab ->
  let t := tok_new (model_from vocab) ps sps in
  let t' := tok_new (model_from (map (fun tk => ST (st_value tk) (reread (st_score tk)) (st_keep tk)) vocab)) ps sps in
  from_str read_num (to_string print_num t) = Ok t' /\
  (Forall Utf8 sps -> from_file read_num (Some (save_contents print_num t)) = Ok t').
Proof. intros vocab ps sps Hs Hv. destruct (C19_round_trip ps C67_codec Hs Hv) as (H1 & _ & H3). split; assumption. Qed.
Print Assumptions C67_loads.

(** ** Numbers from 2^-17 to 2^47 *)
Definition middle (x : f64) : Prop := is_finite x = true /\ bpow radix2 (-17) <= Rabs (B2R x) <= bpow radix2 47.
Lemma middle_0 x : middle x -> B2R x <> 0.
Proof. intros [_ [H _]] E. rewrite E, Rabs_R0 in H. assert (P := bpow2_pos (-17)). lra. Qed.
(** Such a number is read as itself or one of its two neighbours ... *)
Theorem C67_near : forall x, middle x ->
  let a := Rabs (B2R x) in let b := Rabs (B2R (reread x)) in
  pred radix2 (FLT_exp (-1074) 53) a <= b <= succ radix2 (FLT_exp (-1074) 53) a.
Proof. intros x Hx. destruct (reread_of x (proj1 Hx)) as (y & _ & -> & _ & _ & _ & H & _). apply result_near; [apply H, middle_0, Hx|apply Hx]. Qed.
Print Assumptions C67_near.
(** ... the order of two of them is not reversed ... *)
Theorem C67_order : forall x y, middle x -> middle y -> B2R x <= B2R y -> B2R (reread x) <= B2R (reread y).
Proof.
  intros x y Hx Hy Hle. destruct (reread_of x (proj1 Hx)) as (x' & _ & -> & F1 & S1 & _ & R1 & _). destruct (reread_of y (proj1 Hy)) as (y' & _ & -> & F2 & S2 & _ & R2 & _).
  specialize (R1 (middle_0 Hx)). specialize (R2 (middle_0 Hy)). rewrite (sign_abs x' F1), (sign_abs y' F2), S1, S2. rewrite (sign_abs x (proj1 Hx)), (sign_abs y (proj1 Hy)) in Hle.
  assert (A1 := Rabs_pos (B2R x')). assert (A2 := Rabs_pos (B2R y')). destruct Hx as [_ Hx]. destruct Hy as [_ Hy]. assert (P := bpow2_pos (-17)).
  destruct (Bsign x), (Bsign y); [|lra|exfalso; lra|].
  - apply Ropp_le_contravar. apply (result_le R2 R1 Hy Hx). lra.
  - apply (result_le R1 R2 Hx Hy Hle).
Qed.
Print Assumptions C67_order.
(** ... and a second time, nothing changes. *)
Theorem C67_once : forall x, middle x -> reread (reread x) = reread x.
Proof.
  intros x Hx. destruct (reread_of x (proj1 Hx)) as (y & _ & -> & F1 & S1 & _ & R1 & _). specialize (R1 (middle_0 Hx)). assert (Hy := result_core R1 (proj2 Hx)).
  destruct (reread_of y F1) as (z & _ & -> & F2 & S2 & _ & R2 & _). specialize (R2 (middle_0 (conj F1 Hy))). apply B2R_Bsign_inj; [exact F2|exact F1| |exact S2].
  rewrite (sign_abs z F2), (sign_abs y F1), S2. rewrite (result_once R1 R2 (proj2 Hx)). reflexivity.
Qed.
Print Assumptions C67_once.

(** ** What does not hold *)
(** A score of -7.39... is changed by saving and loading. *)
Definition score_a : f64 := @B754_finite prec64 emax64 true 8323461865921062 (-50) eq_refl.
Definition score_b : f64 := f64_of_Z (-4).
Definition score_ab : f64 := @B754_finite prec64 emax64 true 6413530746645779 (-49) eq_refl.
Lemma middle_a : middle score_a.
Proof. split; [reflexivity|]. unfold score_a. rewrite abs_finite. unfold num. simpl. lra. Qed.
Theorem C67_same_refuted : ~ forall x, middle x -> reread x = x.
Proof.
  intros H. specialize (H _ middle_a). assert (E : feqb (reread score_a) score_a = false) by (vm_compute; reflexivity). rewrite H in E. revert E. vm_compute. discriminate.
Qed.
Print Assumptions C67_same_refuted.
(** A tokenizer that encodes a text differently after it was saved and loaded. *)
Definition tie_vocab : list scored_token := [ST (B "a") score_a false; ST (B "b") score_b false; ST (B "ab") score_ab false].
Theorem C67_encode_refuted : ~ forall normalize rnd t t' text, from_str read_num (to_string print_num t) = Ok t' ->
  encode_ordinary normalize t' rnd text f0 = encode_ordinary normalize t rnd text f0.
Proof.
  intros H. assert (Hf : Forall (fun tk => f_is_finite (st_score tk) = true) tie_vocab) by (repeat constructor).
  destruct (@C67_loads tie_vocab [] [] (Forall_nil _) Hf) as [HL _]. specialize (H (fun _ s => s) (fun _ => f0) _ _ (B "ab") HL). revert H. vm_compute. discriminate.
Qed.
Print Assumptions C67_encode_refuted.
(** Below 2^-17 a score can go on changing, and the order of two scores can be reversed. *)
Definition small_x : f64 := @B754_finite prec64 emax64 true 6615987729324378 (-83) eq_refl.
Definition small_y : f64 := @B754_finite prec64 emax64 false 8842857709419977 (-82) eq_refl.
Definition small_z : f64 := @B754_finite prec64 emax64 false 8842857709419978 (-82) eq_refl.
Theorem C67_once_small_refuted : ~ forall x, is_finite x = true -> reread (reread x) = reread x.
Proof.
  intros H. specialize (H small_x eq_refl). assert (E : feqb (reread (reread small_x)) (reread small_x) = false) by (vm_compute; reflexivity). rewrite H in E. revert E. vm_compute. discriminate.
Qed.
Print Assumptions C67_once_small_refuted.
Theorem C67_order_small_refuted : ~ forall x y, is_finite x = true -> is_finite y = true -> fleb x y = true -> fleb (reread x) (reread y) = true.
Proof. intros H. specialize (H small_y small_z eq_refl eq_refl eq_refl). revert H. vm_compute. discriminate. Qed.
Print Assumptions C67_order_small_refuted.

(** ** Examples *)
Example C67_example :
  print_num score_a = B "-7.3927192065080245" /\ print_num (reread score_a) = B "-7.392719206508024" /\ print_num score_b = B "-4.0" /\
  print_num (f64_of_Z_exp 1 (-1074)) = B "5e-324" /\ print_num (f64_of_Z_exp (2 ^ 53 - 1) 971) = B "1.7976931348623157e308" /\
  print_num small_x = B "-6.840770978232317e-10" /\ print_num (f64_of_Z_exp 1 (-10)) = B "0.0009765625" /\
  option_map print_num (read_num (B "-12.50E+1")) = Some (B "-125.0") /\ read_num (B "1e309") = None /\
  option_map print_num (read_num (B "123456789012345678901234567890")) = Some (B "1.2345678901234568e29") /\
  Means (B "-12.50E+1") true 1250 (-1) /\ middle score_a /\ middle score_ab /\
  encode_ordinary (fun _ s => s) (tok_new (model_from tie_vocab) [] []) (fun _ => f0) (B "ab") f0 = Ok [2%N] /\
  match from_str read_num (to_string print_num (tok_new (model_from tie_vocab) [] [])) with
  | Ok t => encode_ordinary (fun _ s => s) t (fun _ => f0) (B "ab") f0 = Ok [0%N; 1%N]
  | _ => False
  end.
Proof.
  repeat (split; [vm_compute; reflexivity|]). split.
  { exists (B "12"), (B ".50"), (B "E+1"), 1%Z. split; [reflexivity|]. split; [split; [discriminate|repeat constructor; vm_compute; discriminate]|]. split.
    - exists (B "50"). split; [right; split; [reflexivity|discriminate]|]. split; [|reflexivity]. apply numeral_iff. split; [repeat constructor; vm_compute; discriminate|reflexivity].
    - right. exists x45, [x2b], (B "1"), 1%Z. split; [reflexivity|]. split; [now right|]. split; [discriminate|]. split; [|auto]. apply numeral_iff. split; [repeat constructor; vm_compute; discriminate|reflexivity]. }
  split; [exact middle_a|]. split; [split; [reflexivity|]; unfold score_ab; rewrite abs_finite; unfold num; simpl; lra|]. split; vm_compute; reflexivity.
Qed.
