(** The text that is printed for a number. *)
From Coq Require Import ZArith Reals Bool Lia Lra.
From Flocq Require Import Core BinarySingleNaN.
From Verif Require Import Base F64 F64Proofs Utf8 SpecUtf8 SpecJson Json SpecNum JsonNum RoundProofs ShortestProofs PartsProofs JsonNumProofs.
Set Implicit Arguments.
Local Open Scope Z_scope.

(** ** Digits *)
Lemma dec_digit r : 0 <= r < 10 -> digit (byte_of_N (Z.to_N (0x30 + r))) /\ digit_val (byte_of_N (Z.to_N (0x30 + r))) = r /\ (byte_of_N (Z.to_N (0x30 + r)) = x30 -> r = 0).
Proof.
  intros H. assert (E : r = 0 \/ r = 1 \/ r = 2 \/ r = 3 \/ r = 4 \/ r = 5 \/ r = 6 \/ r = 7 \/ r = 8 \/ r = 9) by lia.
  repeat (destruct E as [->|E]; [split; [split; vm_compute; discriminate|split; [reflexivity|vm_compute; (discriminate || reflexivity)]]|]). subst r.
  split; [split; vm_compute; discriminate|split; [reflexivity|vm_compute; (discriminate || reflexivity)]].
Qed.
Definition head_not_0 (ds : bytes) : Prop := exists d ds', ds = d :: ds' /\ d <> x30.
Lemma dec_loop_of fuel : forall n acc, 0 <= n < 2 ^ Z.of_nat fuel -> exists ds, dec_loop fuel n acc = ds ++ acc /\ Forall digit ds /\ dfold ds 0 = n /\ (n = 0 -> ds = []) /\ (0 < n -> head_not_0 ds).
Proof.
  induction fuel as [|fuel IH]; intros n acc Hn.
  - assert (n = 0) by (change (2 ^ Z.of_nat 0) with 1 in Hn; lia). exists []. cbn [dec_loop]. repeat split; auto. lia.
  - cbn [dec_loop]. destruct (Z.eqb_spec n 0) as [Hz|Hz]; [exists []; repeat split; auto; lia|].
    assert (D := Z.div_mod n 10 ltac:(lia)). assert (M := Z.mod_pos_bound n 10 ltac:(lia)). set (q := n / 10) in *. set (r := n mod 10) in *.
    destruct (dec_digit M) as (D1 & D2 & D3). set (d := byte_of_N _) in *.
    rewrite Nat2Z.inj_succ, Z.pow_succ_r in Hn by lia.
    destruct (IH q (d :: acc)) as (ds & E & Hd & Hv & H0 & Hp); [lia|]. exists (ds ++ [d]). rewrite <- app_assoc. split; [exact E|]. split; [apply Forall_app; split; [exact Hd|repeat constructor; apply D1]|].
    split; [rewrite dfold_app; unfold dfold at 1; cbn [fold_left]; rewrite Hv, D2; lia|]. split; [lia|]. intros _.
    destruct (Z.eq_dec q 0) as [Eq|Nq].
    + rewrite (H0 Eq). exists d, []. split; [reflexivity|]. intros Ed. apply D3 in Ed. lia.
    + destruct Hp as (x & xs & -> & Hx); [lia|]. exists x, (xs ++ [d]). split; [reflexivity|exact Hx].
Qed.
Lemma head_ge ds : Forall digit ds -> head_not_0 ds -> 10 ^ (len ds - 1) <= dfold ds 0.
Proof.
  intros H (d & ds' & -> & Hd). inversion H; subst. change (dfold (d :: ds') 0) with (dfold ds' (0 * 10 + digit_val d)). rewrite dfold_split, len_cons. replace (1 + len ds' - 1) with (len ds') by lia.
  assert (R := dfold_range H3). assert (P := @pow10_pos (len ds') (len_pos ds')). assert (D := digit_val_range H2).
  assert (digit_val d <> 0). { intros E. apply Hd. apply Byte.to_of_N_iff in Hd || idtac. unfold digit_val, bN in E. assert (EN : Byte.to_N d = 0x30%N) by lia.
    assert (S : Byte.of_N (Byte.to_N d) = Some d) by (apply Byte.of_to_N). rewrite EN in S. cbn in S. congruence. }
  nia.
Qed.
Lemma dec_of n : 0 < n -> Forall digit (dec n) /\ dfold (dec n) 0 = n /\ head_not_0 (dec n).
Proof.
  intros H. unfold dec. replace (n =? 0) with false by (symmetry; apply Z.eqb_neq; lia). assert (L := Z.log2_spec n H). assert (L2 := Z.log2_nonneg n).
  destruct (@dec_loop_of (Z.to_nat (Z.log2 n + 1)) n []) as (ds & -> & H1 & H2 & _ & H3); [rewrite Z2Nat.id by lia; unfold Z.succ in L; lia|]. rewrite app_nil_r. auto.
Qed.
Lemma dec_len n l : 10 ^ (l - 1) <= n < 10 ^ l -> 1 <= l -> len (dec n) = l.
Proof.
  intros H Hl. assert (P := @pow10_pos (l - 1) ltac:(lia)). destruct (@dec_of n ltac:(lia)) as (D1 & D2 & D3). assert (G := head_ge D1 D3). assert (R := dfold_range D1). rewrite D2 in *.
  destruct D3 as (d & ds & E & _). rewrite E in *. rewrite len_cons in *. assert (LP := len_pos ds).
  destruct (Z.lt_trichotomy (1 + len ds) l) as [C|[C|C]]; [exfalso|exact C|exfalso].
  - assert (10 ^ (1 + len ds) <= 10 ^ (l - 1)) by (apply Z.pow_le_mono_r; lia). lia.
  - assert (10 ^ l <= 10 ^ (1 + len ds - 1)) by (apply Z.pow_le_mono_r; lia). lia.
Qed.
Lemma dec_any n : 0 <= n -> Digits (dec n) /\ dfold (dec n) 0 = n.
Proof.
  intros H. destruct (Z.eq_dec n 0) as [->|Hn]; [split; [split; [discriminate|repeat constructor; vm_compute; discriminate]|reflexivity]|].
  destruct (@dec_of n ltac:(lia)) as (H1 & H2 & d & ds & E & _). split; [split; [rewrite E; discriminate|exact H1]|exact H2].
Qed.

(** ** Layout *)
Definition minus_text (minus : bool) : bytes := if minus then [x2d] else [].
Lemma text_of (minus : bool) ip fs ep c x : (ip = [x30] \/ Forall digit ip /\ head_not_0 ip) -> Forall digit fs -> dfold (ip ++ fs) 0 = c ->
  (ep = [] /\ x = 0 \/ exists s es n, ep = x65 :: s ++ es /\ Digits es /\ dfold es 0 = n /\ (s = [] /\ x = n \/ s = [x2d] /\ x = - n)) ->
  let ds := match fs with [] => [] | _ => x2e :: fs end in
  Number (minus_text minus ++ ip ++ ds ++ ep) /\ Means (minus_text minus ++ ip ++ ds ++ ep) minus c (x - len fs).
Proof.
  intros Hi Hf Hc He ds.
  assert (Di : Digits ip) by (destruct Hi as [->|[Hi (d & is & -> & _)]]; [split; [discriminate|repeat constructor; vm_compute; discriminate]|split; [discriminate|exact Hi]]).
  split.
  - exists (minus_text minus), ip, ds, ep. split; [reflexivity|]. split; [destruct minus; auto|]. split; [destruct Hi as [->|[Hi Hh]]; [now left|right; split; [exact Di|destruct Hh as (d & is & E & N); eauto]]|]. split.
    + unfold ds. destruct fs as [|f fs]; [now left|]. right. exists (f :: fs). split; [reflexivity|]. split; [discriminate|exact Hf].
    + destruct He as [[-> _]|(s & es & n & -> & H1 & _ & H3)]; [now left|]. right. exists x65, s, es. split; [reflexivity|]. split; [now left|]. split; [|exact H1]. destruct H3 as [[-> _]|[-> _]]; auto.
  - exists ip, ds, ep, x. split; [reflexivity|]. split; [exact Di|]. split.
    + exists fs. split; [unfold ds; destruct fs; [now left|right; split; [reflexivity|discriminate]]|]. split; [|reflexivity]. apply numeral_iff. split; [apply Forall_app; split; [apply Di|exact Hf]|now symmetry].
    + destruct He as [[-> ->]|(s & es & n & -> & H1 & H2 & H3)]; [now left|]. right. exists x65, s, es, n. split; [reflexivity|]. split; [now left|]. split; [apply H1|]. split; [apply numeral_iff; split; [apply H1|now symmetry]|].
      destruct H3 as [[-> ->]|[-> ->]]; auto.
Qed.

Lemma zeros_digit n : Forall digit (repeat x30 n).
Proof. apply Forall_forall. intros d Hd. apply repeat_spec in Hd as ->. split; vm_compute; discriminate. Qed.
Lemma zeros_len n : 0 <= n -> len (repeat x30 (Z.to_nat n)) = n.
Proof. intros H. unfold len. rewrite repeat_length. lia. Qed.
Lemma zeros_fold n a : dfold (repeat x30 n) a = a * 10 ^ Z.of_nat n.
Proof.
  revert a. induction n as [|n IH]; intros a; [simpl; lia|]. cbn [repeat]. change (dfold (x30 :: ?l) a) with (dfold l (a * 10 + digit_val x30)). rewrite IH, Nat2Z.inj_succ, Z.pow_succ_r by lia.
  change (digit_val x30) with 0. ring.
Qed.
Lemma print_exp_of e : exists s es n, print_exp e = s ++ es /\ Digits es /\ dfold es 0 = n /\ (s = [] /\ e = n \/ s = [x2d] /\ e = - n).
Proof.
  unfold print_exp. destruct (Z.ltb_spec e 0) as [H|H].
  - destruct (@dec_any (- e) ltac:(lia)) as [H1 H2]. exists [x2d], (dec (- e)), (- e). split; [reflexivity|]. split; [exact H1|]. split; [exact H2|]. right. split; [reflexivity|lia].
  - destruct (@dec_any e H) as [H1 H2]. exists [], (dec e), e. split; [reflexivity|]. auto.
Qed.
Lemma layout_text (minus : bool) c k : 0 < c -> exists c' k',
  Number (minus_text minus ++ layout c k) /\ Means (minus_text minus ++ layout c k) minus c' k' /\
  (c' = c /\ k' = k \/ 0 <= k /\ len (dec c) + k <= 16 /\ c' = c * 10 ^ (k + 1) /\ k' = -1).
Proof.
  intros Hc. unfold layout. destruct (dec_of Hc) as (D1 & D2 & D3). set (ds := dec c) in *. change (Z.of_nat (List.length ds)) with (len ds). cbv zeta.
  assert (Hne : ds <> []) by (destruct D3 as (d & ds' & -> & _); discriminate). assert (L1 : 1 <= len ds) by (destruct D3 as (d & ds' & -> & _); rewrite len_cons; assert (L := len_pos ds'); lia).
  assert (Hcut : forall n, 0 < n -> Forall digit (firstn (Z.to_nat n) ds) /\ head_not_0 (firstn (Z.to_nat n) ds) /\ Forall digit (skipn (Z.to_nat n) ds)).
  { intros n Hn. rewrite <- (firstn_skipn (Z.to_nat n) ds) in D1. apply Forall_app in D1 as [X Y]. split; [exact X|]. split; [|exact Y].
    destruct D3 as (d & ds' & -> & Hd). destruct (Z.to_nat n) eqn:E; [lia|]. cbn [firstn]. eexists _, _. split; [reflexivity|exact Hd]. }
  destruct (Z.leb_spec 0 k) as [H1|H1]; cbn [andb]; [destruct (Z.leb_spec (len ds + k) 16) as [H2|H2]|].
  - destruct (@text_of minus (ds ++ repeat x30 (Z.to_nat k)) [x30] [] (c * 10 ^ (k + 1)) 0) as [T1 T2].
    + right. split; [apply Forall_app; split; [exact D1|apply zeros_digit]|]. destruct D3 as (d & ds' & -> & Hd). exists d. eexists. split; [reflexivity|exact Hd].
    + repeat constructor; vm_compute; discriminate.
    + rewrite !dfold_app, D2, zeros_fold, Z2Nat.id by lia. rewrite Z.pow_add_r by lia. cbn [dfold fold_left]. change (digit_val x30) with 0. ring.
    + now left.
    + exists (c * 10 ^ (k + 1)), (-1). rewrite app_nil_r, <- app_assoc in T1, T2. split; [exact T1|]. split; [exact T2|]. right. auto.
  - rewrite ?andb_false_r.
    replace ((-5 <? len ds + k) && (len ds + k <=? 0)) with false by (symmetry; apply andb_false_iff; right; apply Z.leb_gt; lia).
    exists c, k. match goal with |- Number (_ ++ ?t) /\ _ => enough (Number (minus_text minus ++ t) /\ Means (minus_text minus ++ t) minus c k) by tauto end.
    destruct (print_exp_of (len ds + k - 1)) as (s & es & n & -> & E1 & E2 & E3). destruct (Z.eqb_spec (len ds) 1) as [E|E].
    + destruct (@text_of minus ds [] (x65 :: s ++ es) c (len ds + k - 1)) as [T1 T2]; auto; [now rewrite app_nil_r|right; exists s, es, n; auto|]. replace (len ds + k - 1 - len []) with k in T2 by (change (len []) with 0; lia). split; [exact T1|exact T2].
    + destruct (Hcut 1 ltac:(lia)) as (A1 & A2 & A3). change (Z.to_nat 1) with 1%nat in *. destruct (@text_of minus (firstn 1 ds) (skipn 1 ds) (x65 :: s ++ es) c (len ds + k - 1)) as [T1 T2]; auto; [now rewrite firstn_skipn|right; exists s, es, n; auto|].
      assert (EL : len (skipn 1 ds) = len ds - 1) by (unfold len in *; rewrite skipn_length; lia). replace (len ds + k - 1 - len (skipn 1 ds)) with k in T2 by lia.
      destruct (skipn 1 ds) eqn:Es; [change (len []) with 0 in EL; lia|]. split; [exact T1|exact T2].
  - exists c, k. match goal with |- Number (_ ++ ?t) /\ _ => enough (Number (minus_text minus ++ t) /\ Means (minus_text minus ++ t) minus c k) by tauto end.
    destruct (Z.ltb_spec 0 (len ds + k)) as [H2|H2]; cbn [andb]; [destruct (Z.leb_spec (len ds + k) 16) as [H3|H3]|].
    + set (kk := len ds + k) in *. destruct (Hcut kk ltac:(lia)) as (A1 & A2 & A3). destruct (@text_of minus (firstn (Z.to_nat kk) ds) (skipn (Z.to_nat kk) ds) [] c 0) as [T1 T2]; auto; [now rewrite firstn_skipn|].
      assert (EL : len (skipn (Z.to_nat kk) ds) = - k) by (unfold kk, len in *; rewrite skipn_length; lia). replace (0 - len (skipn (Z.to_nat kk) ds)) with k in T2 by lia.
      destruct (skipn (Z.to_nat kk) ds) eqn:Es; [change (len []) with 0 in EL; lia|]. rewrite app_nil_r in T1, T2. split; [exact T1|exact T2].
    + replace ((-5 <? len ds + k) && (len ds + k <=? 0)) with false by (symmetry; apply andb_false_iff; right; apply Z.leb_gt; lia).
      destruct (print_exp_of (len ds + k - 1)) as (s & es & n & -> & E1 & E2 & E3). destruct (Z.eqb_spec (len ds) 1) as [E|E]; [lia|].
      destruct (Hcut 1 ltac:(lia)) as (A1 & A2 & A3). change (Z.to_nat 1) with 1%nat in *. destruct (@text_of minus (firstn 1 ds) (skipn 1 ds) (x65 :: s ++ es) c (len ds + k - 1)) as [T1 T2]; auto; [now rewrite firstn_skipn|right; exists s, es, n; auto|].
      assert (EL : len (skipn 1 ds) = len ds - 1) by (unfold len in *; rewrite skipn_length; lia). replace (len ds + k - 1 - len (skipn 1 ds)) with k in T2 by lia.
      destruct (skipn 1 ds) eqn:Es; [change (len []) with 0 in EL; lia|]. split; [exact T1|exact T2].
    + destruct (Z.leb_spec (len ds + k) 0) as [_|]; [|lia]. rewrite andb_true_r. destruct (Z.ltb_spec (-5) (len ds + k)) as [H3|H3].
      * set (z := - (len ds + k)). assert (Hz : 0 <= z) by lia. destruct (@text_of minus [x30] (repeat x30 (Z.to_nat z) ++ ds) [] c 0) as [T1 T2]; auto.
        { apply Forall_app; split; [apply zeros_digit|exact D1]. }
        { cbn [app]. change (dfold (x30 :: ?l) 0) with (dfold l (0 * 10 + digit_val x30)). change (0 * 10 + digit_val x30) with 0. rewrite dfold_app, zeros_fold. exact D2. }
        rewrite len_app, zeros_len in T2 by exact Hz. replace (0 - (z + len ds)) with k in T2 by (unfold z; lia).
        destruct (repeat x30 (Z.to_nat z) ++ ds) eqn:Es; [apply app_eq_nil in Es as [_ Es]; contradiction|]. rewrite app_nil_r in T1, T2. split; [exact T1|exact T2].
      * destruct (print_exp_of (len ds + k - 1)) as (s & es & n & -> & E1 & E2 & E3). destruct (Z.eqb_spec (len ds) 1) as [E|E].
        { destruct (@text_of minus ds [] (x65 :: s ++ es) c (len ds + k - 1)) as [T1 T2]; auto; [now rewrite app_nil_r|right; exists s, es, n; auto|]. replace (len ds + k - 1 - len []) with k in T2 by (change (len []) with 0; lia). split; [exact T1|exact T2]. }
        destruct (Hcut 1 ltac:(lia)) as (A1 & A2 & A3). change (Z.to_nat 1) with 1%nat in *. destruct (@text_of minus (firstn 1 ds) (skipn 1 ds) (x65 :: s ++ es) c (len ds + k - 1)) as [T1 T2]; auto; [now rewrite firstn_skipn|right; exists s, es, n; auto|].
        assert (EL : len (skipn 1 ds) = len ds - 1) by (unfold len in *; rewrite skipn_length; lia). replace (len ds + k - 1 - len (skipn 1 ds)) with k in T2 by lia.
        destruct (skipn 1 ds) eqn:Es; [change (len []) with 0 in EL; lia|]. split; [exact T1|exact T2].
Qed.

(** ** Its length *)
Lemma dec_short n l : 0 <= n < 10 ^ l -> 1 <= l -> len (dec n) <= l.
Proof.
  intros H Hl. destruct (Z.eq_dec n 0) as [->|Hn]; [change (len (dec 0)) with 1; lia|]. destruct (@dec_of n ltac:(lia)) as (D1 & D2 & D3). assert (G := head_ge D1 D3). rewrite D2 in G.
  destruct (Z.le_gt_cases (len (dec n)) l) as [|C]; [assumption|]. assert (10 ^ l <= 10 ^ (len (dec n) - 1)) by (apply Z.pow_le_mono_r; lia). lia.
Qed.
Lemma print_exp_short e : -1000 < e < 1000 -> len (print_exp e) <= 4.
Proof.
  intros H. unfold print_exp. destruct (e <? 0) eqn:E.
  - rewrite len_cons. apply Z.ltb_lt in E. assert (L := @dec_short (- e) 3 ltac:(change (10 ^ 3) with 1000; lia) ltac:(lia)). lia.
  - apply Z.ltb_ge in E. assert (L := @dec_short e 3 ltac:(change (10 ^ 3) with 1000; lia) ltac:(lia)). lia.
Qed.
Lemma layout_short c k : len (dec c) <= 17 -> -400 <= k <= 400 -> len (layout c k) <= 60.
Proof.
  intros Hn Hk. unfold layout. set (ds := dec c) in *. change (Z.of_nat (List.length ds)) with (len ds). cbv zeta. assert (L := len_pos ds).
  assert (F : forall n, len (firstn n ds) <= len ds) by (intros n; unfold len; rewrite firstn_length; lia).
  assert (S : forall n, len (skipn n ds) <= len ds) by (intros n; unfold len; rewrite skipn_length; lia).
  assert (P := @print_exp_short (len ds + k - 1) ltac:(lia)). assert (F1 := F 1%nat). assert (S1 := S 1%nat).
  destruct ((0 <=? k) && (len ds + k <=? 16)) eqn:E1; [apply andb_true_iff in E1 as [X Y]; apply Z.leb_le in X, Y; rewrite !len_app, zeros_len by lia; change (len (B ".0")) with 2; lia|].
  destruct ((0 <? len ds + k) && (len ds + k <=? 16)) eqn:E2; [specialize (F (Z.to_nat (len ds + k))); specialize (S (Z.to_nat (len ds + k))); rewrite !len_app; change (len (B ".")) with 1; lia|].
  destruct ((-5 <? len ds + k) && (len ds + k <=? 0)) eqn:E3; [apply andb_true_iff in E3 as [X Y]; apply Z.ltb_lt in X; apply Z.leb_le in Y; rewrite !len_app, zeros_len by lia; change (len (B "0.")) with 2; lia|].
  destruct (len ds =? 1); rewrite !len_app; change (len (B "e")) with 1; change (len (B ".")) with 1; lia.
Qed.

(** ** Every finite number *)
Lemma bounded_canon m e : SpecFloat.bounded prec64 emax64 m e = true -> canon (Zpos m) e /\ e <= 971.
Proof.
  intros H. unfold SpecFloat.bounded in H. apply andb_true_iff in H as [H1 H2]. apply Zle_bool_imp_le in H2. unfold prec64, emax64 in *. split; [|lia].
  unfold SpecFloat.canonical_mantissa in H1. apply Zeq_bool_eq in H1. unfold SpecFloat.fexp, SpecFloat.emin in H1. change (3 - 1024 - 53) with (-1074) in H1.
  change (Z.pos (SpecFloat.digits2_pos m)) with (Z.pos (Digits.digits2_pos m)) in H1.
  assert (D : Z.pos (Digits.digits2_pos m) = Digits.Zdigits radix2 (Z.pos m)) by (apply Digits.Zpos_digits2_pos). rewrite D in H1.
  assert (C := Digits.Zdigits_correct radix2 (Z.pos m)). set (d := Digits.Zdigits radix2 (Z.pos m)) in *. change (Z.abs (Z.pos m)) with (Z.pos m) in C.
  assert (Hd : 0 < d) by (unfold d; apply Digits.Zdigits_gt_0; discriminate).
  change (Z.pow (radix_val radix2)) with (Z.pow 2) in C. change (radix_val radix2) with 2 in C.
  assert (d <= 53) by lia. assert (2 ^ d <= 2 ^ 53) by (apply Z.pow_le_mono_r; lia). repeat split; try lia.
  destruct (Z.eq_dec d 53) as [->|N]; [left; change (53 - 1) with 52 in C; lia|right; lia].
Qed.
Local Open Scope R_scope.
Lemma num_max m e : canon m e -> (e <= 971)%Z -> num m e <= bpow radix2 1024 - bpow radix2 971.
Proof.
  intros (Hm & He & _) H. unfold num. assert (bpow radix2 e <= bpow radix2 971) by (apply bpow_le; lia). assert (P := bpow2_pos e). assert (P2 := bpow2_pos 971).
  assert (0 <= IZR m <= IZR (2 ^ 53) - 1) by (rewrite <- minus_IZR; split; apply IZR_le; lia). change 1024%Z with (53 + 971)%Z. rewrite bpow_plus. change (bpow radix2 53) with (IZR (2 ^ 53)). nra.
Qed.
Lemma k_range c k m e : canon m e -> (e <= 971)%Z -> (0 < c < 10 ^ 17)%Z -> nearest (decimal c k) = num m e -> (-400 <= k <= 309)%Z.
Proof.
  intros Hc He Hr E. assert (M := num_max Hc He). assert (Np := num_pos e (proj1 (proj1 Hc))). assert (P2 := bpow2_pos 971). split.
  - destruct (Z.le_gt_cases (-400) k) as [|G]; [assumption|exfalso]. rewrite (@nearest_small (decimal c k)) in E; [lra|apply decimal_nonneg; lia|].
    unfold decimal. apply Rle_lt_trans with (IZR (10 ^ 17) * powerRZ 10 (-401)).
    + assert (IZR c <= IZR (10 ^ 17)) by (apply IZR_le; lia). assert (powerRZ 10 k <= powerRZ 10 (-401)) by (apply p10_le; lia). assert (0 <= IZR c) by (apply IZR_le; lia). assert (P := p10_pos k). apply Rmult_le_compat; lra.
    + change (-401)%Z with (- (401))%Z. rewrite p10_opp, p10_Z by lia. unfold eta. change (-1075)%Z with (- (1075))%Z. rewrite bpow_opp, !b2_Z by lia.
      assert (0 < IZR (10 ^ 401)) by (apply IZR_lt, pow10_pos; lia). assert (0 < IZR (2 ^ 1075)) by (apply IZR_lt, pow2_pos; lia).
      apply Rmult_lt_reg_r with (IZR (10 ^ 401) * IZR (2 ^ 1075)); [nra|]. replace (IZR (10 ^ 17) * / IZR (10 ^ 401) * (IZR (10 ^ 401) * IZR (2 ^ 1075))) with (IZR (10 ^ 17) * IZR (2 ^ 1075)) by (field; lra).
      replace (/ IZR (2 ^ 1075) * (IZR (10 ^ 401) * IZR (2 ^ 1075))) with (IZR (10 ^ 401)) by (field; lra). rewrite <- mult_IZR. apply IZR_lt. vm_compute. reflexivity.
  - destruct (Z.le_gt_cases k 309) as [|G]; [assumption|exfalso]. assert (B : bpow radix2 1024 <= nearest (decimal c k)); [|lra].
    rewrite <- (nearest_id (r := bpow radix2 1024)) by (apply generic_format_bpow; unfold FLT_exp; lia). apply nearest_le.
    apply Rle_trans with (decimal 1 310); [unfold decimal; rewrite Rmult_1_l, p10_Z, b2_Z by lia; apply IZR_le; vm_compute; discriminate|].
    apply Rle_trans with (decimal 1 k); [unfold decimal; rewrite !Rmult_1_l; apply p10_le; lia|apply decimal_le; lia].
Qed.

Lemma unsigned s c k (minus : bool) : Means s false c k -> read_num (minus_text minus ++ s) = option_map (if minus then fneg else fun f => f) (read_num s).
Proof.
  intros (ip & ds & ep & x & -> & [Hne Hd] & _). cbn [app]. destruct ip as [|d ip]; [contradiction|]. inversion Hd; subst.
  assert (E : Byte.eqb d "-" = false) by (destruct (Byte.eqb d "-") eqn:E2; [apply Byte.byte_dec_bl in E2 as ->; unfold digit in H1; change (Byte.to_N x2d) with 45%N in H1; exfalso; lia|reflexivity]).
  destruct minus; cbn [minus_text app read_num]; rewrite E; [reflexivity|]. destruct (read_abs _); reflexivity.
Qed.
(** The decimal that is printed for [m * 2^e] and the parts that are read from it. *)
Lemma printed m e : canon m e -> (e <= 971)%Z -> exists c k n c' k' o, shortest m e = (c, k) /\
  (1 <= n <= 17)%Z /\ (10 ^ (n - 1) <= c < 10 ^ n)%Z /\ (-400 <= k <= 309)%Z /\ nearest (decimal c k) = num m e /\
  (forall c' k', (0 < c')%Z -> (c' * 10 < 10 ^ n)%Z -> nearest (decimal c' k') <> num m e) /\
  (forall c' k', (0 < c' < 10 ^ n)%Z -> nearest (decimal c' k') = num m e -> Rabs (decimal c k - num m e) <= Rabs (decimal c' k' - num m e)) /\
  (c' = c /\ k' = k \/ (0 <= k /\ n + k <= 16 /\ c' = c * 10 ^ (k + 1) /\ k' = -1)%Z) /\
  decimal c' k' = decimal c k /\ (0 < c' < 10 ^ 17)%Z /\
  (o = from_parts c' k' \/ k' = 0%Z /\ o = Some (f64_of_Z c')) /\
  forall minus : bool, Number (minus_text minus ++ layout c k) /\ Means (minus_text minus ++ layout c k) minus c' k' /\
    read_num (minus_text minus ++ layout c k) = option_map (if minus then fneg else fun f => f) o.
Proof.
  intros Hc He. destruct (shortest_spec Hc He) as (c & k & n & Es & Hn & Hr & Hv & Hs & Hx).
  assert (P1 := @pow10_pos (n - 1) ltac:(lia)). assert (T17 : (10 ^ n <= 10 ^ 17)%Z) by (apply Z.pow_le_mono_r; lia).
  assert (K := @k_range c k m e Hc He ltac:(lia) Hv). assert (L := @dec_len c n Hr ltac:(lia)).
  assert (Hsame : forall c' k', (c' = c /\ k' = k \/ (0 <= k /\ n + k <= 16 /\ c' = c * 10 ^ (k + 1) /\ k' = -1)%Z) -> decimal c' k' = decimal c k /\ (0 < c' < 10 ^ 17)%Z).
  { intros c' k' [[-> ->]|(A1 & A2 & -> & ->)]; [split; [reflexivity|lia]|]. split; [rewrite decimal_shift by lia; f_equal; lia|].
    assert (Q := @pow10_pos (k + 1) ltac:(lia)). assert (10 ^ n * 10 ^ (k + 1) <= 10 ^ 17)%Z by (rewrite <- Z.pow_add_r by lia; apply Z.pow_le_mono_r; lia). nia. }
  destruct (@layout_text false c k ltac:(lia)) as (c' & k' & T1 & T2 & T3). rewrite L in T3. exists c, k, n, c', k', (read_num (layout c k)). destruct (Hsame _ _ T3) as [S1 S2].
  repeat (split; [first [exact Es|exact Hn|exact Hr|exact K|exact Hv|exact Hs|exact Hx|exact T3|exact S1|exact S2]|]).
  assert (LL := @layout_short c k ltac:(lia) ltac:(lia)). cbn [minus_text app] in T1, T2. split.
  - destruct (@read_num_of _ _ _ _ T2) as (o & R1 & _ & _ & R2); [unfold len in LL; lia|]. replace (read_num (layout c k)) with o by (rewrite R1; destruct o; reflexivity).
    apply R2; [unfold u64_max; assert (10 ^ 17 < 2 ^ 64)%Z by reflexivity; lia|]. destruct T3 as [[_ ->]|(_ & _ & _ & ->)]; lia.
  - intros minus. destruct (@layout_text minus c k ltac:(lia)) as (c2 & k2 & U1 & _ & _). split; [exact U1|]. split; [|now apply unsigned with (1 := T2)].
    destruct T2 as (ip & ds & ep & x & Et & T2). exists ip, ds, ep, x. cbn [app] in Et. rewrite Et. split; [reflexivity|exact T2].
Qed.
