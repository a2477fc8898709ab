(** The executable UTF-8 functions of Utf8.v meet the specification of SpecUtf8.v. *)
From Coq Require Import ZifyBool ZifyNat ZifyN.
From Verif Require Import Base BaseProofs Utf8 SpecUtf8.
Set Implicit Arguments.
Ltac Zify.zify_post_hook ::= Z.div_mod_to_equations.

Lemma bN_lt b : (bN b < 256)%N.
Proof. unfold bN. destruct b; vm_compute; reflexivity. Qed.

Lemma bN_byte_of_N n : (n < 256)%N -> bN (byte_of_N n) = n.
Proof.
  intros H. unfold bN, byte_of_N. destruct (Byte.of_N n) as [b|] eqn:E.
  - now apply Byte.to_of_N.
  - apply Byte.of_N_None_iff in E. lia.
Qed.

Lemma byte_of_N_bN b : byte_of_N (bN b) = b.
Proof. unfold bN, byte_of_N. now rewrite Byte.of_to_N. Qed.

Lemma byte_of_N_eq n b : n = bN b -> byte_of_N n = b.
Proof. intros ->. apply byte_of_N_bN. Qed.

Lemma encode_char_nonempty c : encode_char c <> [].
Proof. unfold encode_char. repeat destruct (_ <? _)%N; discriminate. Qed.

Lemma encode_char_length c : 1 <= length (encode_char c) <= 4.
Proof. unfold encode_char. repeat destruct (_ <? _)%N; simpl; lia. Qed.

(** A character is recognised, with its length. *)
Lemma utf8_step_char c r : scalar c -> utf8_step (encode_char c ++ r) = GoodChar (length (encode_char c)).
Proof.
  unfold scalar, encode_char. intros Hc.
  destruct (N.ltb_spec c 0x80); [|destruct (N.ltb_spec c 0x800); [|destruct (N.ltb_spec c 0x10000)]];
    cbn [app length utf8_step]; unfold is_cont, second3, second4, in_range; rewrite !bN_byte_of_N by lia.
  - now replace (c <? 128)%N with true by lia.
  - replace (192 + c / 64 <? 128)%N with false by lia.
    replace ((194 <=? 192 + c / 64) && (192 + c / 64 <=? 223))%N with true by lia.
    now replace ((128 <=? 128 + c mod 64) && (128 + c mod 64 <=? 191))%N with true by lia.
  - replace (224 + c / 4096 <? 128)%N with false by lia.
    replace ((194 <=? 224 + c / 4096) && (224 + c / 4096 <=? 223))%N with false by lia.
    replace ((224 <=? 224 + c / 4096) && (224 + c / 4096 <=? 239))%N with true by lia.
    unfold is_cont, in_range. rewrite !bN_byte_of_N by lia.
    replace ((128 <=? 128 + c mod 64) && (128 + c mod 64 <=? 191))%N with true by lia.
    assert (Hs : (if (224 + c / 4096 =? 224)%N then ((160 <=? 128 + c / 64 mod 64) && (128 + c / 64 mod 64 <=? 191))%N
       else if (224 + c / 4096 =? 237)%N then ((128 <=? 128 + c / 64 mod 64) && (128 + c / 64 mod 64 <=? 159))%N
       else ((128 <=? 128 + c / 64 mod 64) && (128 + c / 64 mod 64 <=? 191))%N) = true).
    { destruct (N.eqb_spec (224 + c / 4096) 224); [lia|].
      destruct (N.eqb_spec (224 + c / 4096) 237); lia. }
    now rewrite Hs.
  - replace (240 + c / 262144 <? 128)%N with false by lia.
    replace ((194 <=? 240 + c / 262144) && (240 + c / 262144 <=? 223))%N with false by lia.
    replace ((224 <=? 240 + c / 262144) && (240 + c / 262144 <=? 239))%N with false by lia.
    replace ((240 <=? 240 + c / 262144) && (240 + c / 262144 <=? 244))%N with true by lia.
    unfold is_cont, in_range. rewrite !bN_byte_of_N by lia.
    replace ((128 <=? 128 + c mod 64) && (128 + c mod 64 <=? 191))%N with true by lia.
    replace ((128 <=? 128 + c / 64 mod 64) && (128 + c / 64 mod 64 <=? 191))%N with true by lia.
    assert (Hs : (if (240 + c / 262144 =? 240)%N then ((144 <=? 128 + c / 4096 mod 64) && (128 + c / 4096 mod 64 <=? 191))%N
       else if (240 + c / 262144 =? 244)%N then ((128 <=? 128 + c / 4096 mod 64) && (128 + c / 4096 mod 64 <=? 143))%N
       else ((128 <=? 128 + c / 4096 mod 64) && (128 + c / 4096 mod 64 <=? 191))%N) = true).
    { destruct (N.eqb_spec (240 + c / 262144) 240); [lia|].
      destruct (N.eqb_spec (240 + c / 262144) 244); lia. }
    now rewrite Hs.
Qed.

(** What is recognised as a character is one. *)
Lemma utf8_step_good s n : utf8_step s = GoodChar n ->
  exists c, scalar c /\ n = length (encode_char c) /\ s = encode_char c ++ skipn n s.
Proof.
  destruct s as [|b0 s]; [discriminate|]. cbn [utf8_step].
  assert (L0 := bN_lt b0).
  destruct (N.ltb_spec (bN b0) 0x80) as [H0|H0].
  { intros [= <-]. exists (bN b0). unfold scalar, encode_char.
    replace (bN b0 <? 128)%N with true by lia. rewrite byte_of_N_bN. split; [lia|]. split; reflexivity. }
  unfold in_range at 1. destruct ((0xC2 <=? bN b0) && (bN b0 <=? 0xDF))%N eqn:H2.
  { destruct s as [|b1 s]; [discriminate|]. assert (L1 := bN_lt b1).
    unfold is_cont, in_range. destruct ((0x80 <=? bN b1) && (bN b1 <=? 0xBF))%N eqn:C1; [|discriminate].
    intros [= <-]. exists ((bN b0 - 0xC0) * 64 + (bN b1 - 0x80))%N. unfold scalar, encode_char.
    set (c := ((bN b0 - 0xC0) * 64 + (bN b1 - 0x80))%N).
    replace (c <? 128)%N with false by lia. replace (c <? 2048)%N with true by lia.
    split; [lia|]. split; [reflexivity|]. cbn [skipn app].
    rewrite (@byte_of_N_eq _ b0), (@byte_of_N_eq _ b1) by lia. reflexivity. }
  unfold in_range at 1. destruct ((0xE0 <=? bN b0) && (bN b0 <=? 0xEF))%N eqn:H3.
  { destruct s as [|b1 s]; [discriminate|]. assert (L1 := bN_lt b1).
    destruct (second3 b0 b1) eqn:S3; [|discriminate].
    destruct s as [|b2 s]; [discriminate|]. assert (L2 := bN_lt b2).
    unfold is_cont, in_range. destruct ((0x80 <=? bN b2) && (bN b2 <=? 0xBF))%N eqn:C2; [|discriminate].
    intros [= <-]. unfold second3, is_cont, in_range in S3.
    assert (S3' : (0x80 <= bN b1 <= 0xBF /\ (bN b0 = 0xE0 -> 0xA0 <= bN b1) /\ (bN b0 = 0xED -> bN b1 <= 0x9F))%N).
    { destruct (N.eqb_spec (bN b0) 0xE0); [lia|]. destruct (N.eqb_spec (bN b0) 0xED); lia. }
    clear S3. exists ((bN b0 - 0xE0) * 4096 + (bN b1 - 0x80) * 64 + (bN b2 - 0x80))%N. unfold scalar, encode_char.
    set (c := ((bN b0 - 0xE0) * 4096 + (bN b1 - 0x80) * 64 + (bN b2 - 0x80))%N).
    replace (c <? 128)%N with false by lia. replace (c <? 2048)%N with false by lia.
    replace (c <? 65536)%N with true by lia.
    split; [lia|]. split; [reflexivity|]. cbn [skipn app].
    rewrite (@byte_of_N_eq _ b0), (@byte_of_N_eq _ b1), (@byte_of_N_eq _ b2) by lia. reflexivity. }
  unfold in_range at 1. destruct ((0xF0 <=? bN b0) && (bN b0 <=? 0xF4))%N eqn:H4; [|discriminate].
  destruct s as [|b1 s]; [discriminate|]. assert (L1 := bN_lt b1).
  destruct (second4 b0 b1) eqn:S4; [|discriminate].
  destruct s as [|b2 s]; [discriminate|]. assert (L2 := bN_lt b2).
  unfold is_cont, in_range. destruct ((0x80 <=? bN b2) && (bN b2 <=? 0xBF))%N eqn:C2; [|discriminate].
  destruct s as [|b3 s]; [discriminate|]. assert (L3 := bN_lt b3).
  destruct ((0x80 <=? bN b3) && (bN b3 <=? 0xBF))%N eqn:C3; [|discriminate].
  intros [= <-]. unfold second4, is_cont, in_range in S4.
  assert (S4' : (0x80 <= bN b1 <= 0xBF /\ (bN b0 = 0xF0 -> 0x90 <= bN b1) /\ (bN b0 = 0xF4 -> bN b1 <= 0x8F))%N).
  { destruct (N.eqb_spec (bN b0) 0xF0); [lia|]. destruct (N.eqb_spec (bN b0) 0xF4); lia. }
  clear S4.
  exists ((bN b0 - 0xF0) * 262144 + (bN b1 - 0x80) * 4096 + (bN b2 - 0x80) * 64 + (bN b3 - 0x80))%N. unfold scalar, encode_char.
  set (c := ((bN b0 - 0xF0) * 262144 + (bN b1 - 0x80) * 4096 + (bN b2 - 0x80) * 64 + (bN b3 - 0x80))%N).
  replace (c <? 128)%N with false by lia. replace (c <? 2048)%N with false by lia.
  replace (c <? 65536)%N with false by lia.
  split; [lia|]. split; [reflexivity|]. cbn [skipn app].
  rewrite (@byte_of_N_eq _ b0), (@byte_of_N_eq _ b1), (@byte_of_N_eq _ b2), (@byte_of_N_eq _ b3) by lia. reflexivity.
Qed.

(** ** Beginnings of characters *)

Definition lead (b : byte) : bool := in_range 0xC2 0xF4 b.
Definition lead3 (b : byte) : bool := in_range 0xE0 0xEF b.
Definition lead4 (b : byte) : bool := in_range 0xF0 0xF4 b.

Definition cstart (p : bytes) : bool :=
  match p with
  | [] => true
  | [b0] => lead b0
  | [b0; b1] => (lead3 b0 && second3 b0 b1) || (lead4 b0 && second4 b0 b1)
  | [b0; b1; b2] => lead4 b0 && second4 b0 b1 && is_cont b2
  | _ => false
  end.

Lemma good_start p q : q <> [] -> utf8_step (p ++ q) = GoodChar (length p + length q) -> char_start p.
Proof.
  intros Hq H. apply utf8_step_good in H as (c & Hc & Hl & Hs).
  exists c, q. split; [exact Hc|]. split; [exact Hq|]. rewrite Hs.
  rewrite skipn_all2; [now rewrite app_nil_r|]. rewrite app_length. lia.
Qed.

Ltac ranges := unfold lead, lead3, lead4, second3, second4, is_cont, in_range in *.

Lemma cstart_char_start p : cstart p = true -> char_start p.
Proof.
  intros H.
  destruct p as [|b0 [|b1 [|b2 [|b3 p]]]]; cbn [cstart] in H; try discriminate.
  - exists 65%N, [x41]. repeat split; [unfold scalar; lia|discriminate].
  - assert (L0 := bN_lt b0). ranges.
    destruct ((0xE0 <=? bN b0) && (bN b0 <=? 0xEF))%N eqn:H3.
    + destruct (N.eqb_spec (bN b0) 0xE0) as [E|E].
      * apply good_start with (q := [xa0; x80]); [discriminate|]. cbn [app utf8_step length]. ranges. rewrite E. reflexivity.
      * apply good_start with (q := [x80; x80]); [discriminate|]. cbn [app utf8_step length]. ranges.
        replace (bN b0 <? 128)%N with false by lia. replace ((194 <=? bN b0) && (bN b0 <=? 223))%N with false by lia.
        rewrite H3. replace (bN b0 =? 224)%N with false by lia. now destruct (bN b0 =? 237)%N.
    + destruct ((0xF0 <=? bN b0) && (bN b0 <=? 0xF4))%N eqn:H4.
      * destruct (N.eqb_spec (bN b0) 0xF0) as [E|E].
        -- apply good_start with (q := [x90; x80; x80]); [discriminate|]. cbn [app utf8_step length]. ranges. rewrite E. reflexivity.
        -- apply good_start with (q := [x80; x80; x80]); [discriminate|]. cbn [app utf8_step length]. ranges.
           replace (bN b0 <? 128)%N with false by lia. replace ((194 <=? bN b0) && (bN b0 <=? 223))%N with false by lia.
           rewrite H3, H4. replace (bN b0 =? 240)%N with false by lia. now destruct (bN b0 =? 244)%N.
      * apply good_start with (q := [x80]); [discriminate|]. cbn [app utf8_step length]. ranges.
        replace (bN b0 <? 128)%N with false by lia. now replace ((194 <=? bN b0) && (bN b0 <=? 223))%N with true by lia.
  - assert (L0 := bN_lt b0). apply orb_true_iff in H as [H|H]; apply andb_true_iff in H as [Hl H].
    + apply good_start with (q := [x80]); [discriminate|]. cbn [app utf8_step length]. rewrite H. ranges.
      replace (bN b0 <? 128)%N with false by lia. replace ((194 <=? bN b0) && (bN b0 <=? 223))%N with false by lia.
      now rewrite Hl.
    + apply good_start with (q := [x80; x80]); [discriminate|]. cbn [app utf8_step length]. rewrite H. ranges.
      replace (bN b0 <? 128)%N with false by lia. replace ((194 <=? bN b0) && (bN b0 <=? 223))%N with false by lia.
      replace ((224 <=? bN b0) && (bN b0 <=? 239))%N with false by lia.
      now rewrite Hl.
  - assert (L0 := bN_lt b0). apply andb_true_iff in H as [H H2]. apply andb_true_iff in H as [Hl H].
    apply good_start with (q := [x80]); [discriminate|]. cbn [app utf8_step length]. rewrite H, H2. ranges.
    replace (bN b0 <? 128)%N with false by lia. replace ((194 <=? bN b0) && (bN b0 <=? 223))%N with false by lia.
    replace ((224 <=? bN b0) && (bN b0 <=? 239))%N with false by lia.
    now rewrite Hl.
Qed.

Lemma char_start_cstart p : char_start p -> cstart p = true.
Proof.
  intros (c & q & Hc & Hq & He).
  assert (Hs := utf8_step_char [] Hc). rewrite app_nil_r in Hs. rewrite He in Hs.
  assert (Hlen := encode_char_length c). rewrite He, app_length in Hlen.
  destruct q as [|q0 q]; [congruence|].
  destruct p as [|b0 [|b1 [|b2 [|b3 p]]]]; cbn [cstart app length utf8_step] in *; try lia; auto.
  - assert (L0 := bN_lt b0). ranges.
    destruct (N.ltb_spec (bN b0) 128); [injection Hs; lia|].
    destruct ((194 <=? bN b0) && (bN b0 <=? 223))%N eqn:H2; [lia|].
    destruct ((224 <=? bN b0) && (bN b0 <=? 239))%N eqn:H3; [lia|].
    destruct ((240 <=? bN b0) && (bN b0 <=? 244))%N eqn:H4; [lia|discriminate].
  - assert (L0 := bN_lt b0). unfold lead3, lead4.
    destruct (N.ltb_spec (bN b0) 128); [injection Hs; lia|].
    destruct (in_range 194 223 b0) eqn:H2; [destruct (is_cont b1); [injection Hs; lia|discriminate]|].
    destruct (in_range 224 239 b0) eqn:H3; [destruct (second3 b0 b1); [reflexivity|discriminate]|].
    destruct (in_range 240 244 b0) eqn:H4; [destruct (second4 b0 b1); [reflexivity|discriminate]|discriminate].
  - assert (L0 := bN_lt b0). unfold lead4.
    destruct (N.ltb_spec (bN b0) 128); [injection Hs; lia|].
    destruct (in_range 194 223 b0) eqn:H2; [destruct (is_cont b1); [injection Hs; lia|discriminate]|].
    destruct (in_range 224 239 b0) eqn:H3.
    { destruct (second3 b0 b1); [|discriminate]. destruct (is_cont b2); [injection Hs; lia|discriminate]. }
    destruct (in_range 240 244 b0) eqn:H4; [|discriminate]. destruct (second4 b0 b1); [|discriminate].
    destruct (is_cont b2); [reflexivity|discriminate].
Qed.

Lemma prefix_cases {A} (s p r : list A) : s = p ++ r -> p = firstn (length p) s.
Proof. intros ->. rewrite firstn_app, Nat.sub_diag, firstn_all, firstn_O. now rewrite app_nil_r. Qed.

Lemma utf8_step_bad s n : s <> [] -> utf8_step s = BadPart n ->
  1 <= n <= length s /\ bad_part s (firstn n s).
Proof.
  intros Hne Hs.
  assert (Hno : forall c r, scalar c -> s <> encode_char c ++ r).
  { intros c r Hc ->. rewrite utf8_step_char in Hs by exact Hc. discriminate. }
  assert (Hn : 1 <= n <= length s /\
    ((cstart (firstn n s) = true /\ forall k, n < k <= length s -> cstart (firstn k s) = false) \/
     (n = 1 /\ forall k, 0 < k <= length s -> cstart (firstn k s) = false))).
  { clear Hno. destruct s as [|b0 s]; [congruence|]. clear Hne. cbn [utf8_step] in Hs. assert (L0 := bN_lt b0).
    assert (Hbig : forall b0 b1 b2 b3 (s : bytes) k, 4 <= k -> cstart (firstn k (b0 :: b1 :: b2 :: b3 :: s)) = false).
    { intros c0 c1 c2 c3 s' k Hk. destruct k as [|[|[|[|k]]]]; try lia. reflexivity. }
    destruct (N.ltb_spec (bN b0) 128); [discriminate|].
    destruct (in_range 194 223 b0) eqn:H2.
    { assert (Hl3 : lead3 b0 = false) by (ranges; lia). assert (Hl4 : lead4 b0 = false) by (ranges; lia).
      assert (Hn : n = 1). { destruct s as [|b1 s]; [now injection Hs|]. destruct (is_cont b1); [discriminate|now injection Hs]. }
      subst n. split; [simpl; lia|]. left. split; [cbn; ranges; lia|].
      intros k Hk. destruct k as [|[|k]]; try lia. destruct s as [|b1 s]; [simpl in Hk; lia|].
      destruct k as [|k]; [cbn; now rewrite Hl3, Hl4|]. destruct s as [|b2 s]; [simpl in Hk; lia|].
      destruct k as [|k]; [cbn; now rewrite Hl4|]. destruct s as [|b3 s]; [simpl in Hk; lia|]. apply Hbig. lia. }
    destruct (in_range 224 239 b0) eqn:H3.
    { assert (Hl4 : lead4 b0 = false) by (ranges; lia).
      destruct s as [|b1 s].
      { injection Hs as <-. split; [simpl; lia|]. left. split; [cbn; ranges; lia|]. intros k Hk. simpl in Hk. lia. }
      destruct (second3 b0 b1) eqn:S3.
      - assert (Hn : n = 2). { destruct s as [|b2 s]; [now injection Hs|]. destruct (is_cont b2); [discriminate|now injection Hs]. }
        subst n. split; [simpl; lia|]. left. split; [cbn; rewrite S3; unfold lead3; now rewrite H3|].
        intros k Hk. destruct k as [|[|[|k]]]; try lia. destruct s as [|b2 s]; [simpl in Hk; lia|].
        destruct k as [|k]; [cbn; now rewrite Hl4|]. destruct s as [|b3 s]; [simpl in Hk; lia|]. apply Hbig. lia.
      - injection Hs as <-. split; [simpl; lia|]. left. split; [cbn; ranges; lia|].
        intros k Hk. destruct k as [|[|k]]; try lia.
        destruct k as [|k]; [cbn; rewrite S3, Hl4; now rewrite andb_false_r|]. destruct s as [|b2 s]; [simpl in Hk; lia|].
        destruct k as [|k]; [cbn; now rewrite Hl4|]. destruct s as [|b3 s]; [simpl in Hk; lia|]. apply Hbig. lia. }
    destruct (in_range 240 244 b0) eqn:H4.
    { assert (Hl3 : lead3 b0 = false) by (ranges; lia).
      destruct s as [|b1 s].
      { injection Hs as <-. split; [simpl; lia|]. left. split; [cbn; ranges; lia|]. intros k Hk. simpl in Hk. lia. }
      destruct (second4 b0 b1) eqn:S4.
      - destruct s as [|b2 s].
        { injection Hs as <-. split; [simpl; lia|]. left. split; [cbn; unfold lead4; rewrite S4, H4; now rewrite orb_true_r|].
          intros k Hk. simpl in Hk. lia. }
        destruct (is_cont b2) eqn:C2.
        + assert (Hn : n = 3). { destruct s as [|b3 s]; [now injection Hs|]. destruct (is_cont b3); [discriminate|now injection Hs]. }
          subst n. split; [simpl; lia|]. left. split; [cbn; unfold lead4; now rewrite S4, H4, C2|].
          intros k Hk. destruct s as [|b3 s]; [simpl in Hk; lia|]. apply Hbig. lia.
        + injection Hs as <-. split; [simpl; lia|]. left. split; [cbn; unfold lead4; rewrite S4, H4; now rewrite orb_true_r|].
          intros k Hk. destruct k as [|[|[|k]]]; try lia. destruct k as [|k]; [cbn; rewrite C2; now rewrite andb_false_r|].
          destruct s as [|b3 s]; [simpl in Hk; lia|]. apply Hbig. lia.
      - injection Hs as <-. split; [simpl; lia|]. left. split; [cbn; ranges; lia|].
        intros k Hk. destruct k as [|[|k]]; try lia.
        destruct k as [|k]; [cbn; rewrite S4, Hl3; now rewrite andb_false_r|]. destruct s as [|b2 s]; [simpl in Hk; lia|].
        destruct k as [|k]; [cbn; rewrite S4; now rewrite andb_false_r|]. destruct s as [|b3 s]; [simpl in Hk; lia|]. apply Hbig. lia. }
    injection Hs as <-. split; [simpl; lia|]. right. split; [reflexivity|].
    assert (Hl : lead b0 = false) by (ranges; lia). assert (Hl3 : lead3 b0 = false) by exact H3.
    assert (Hl4 : lead4 b0 = false) by exact H4.
    intros k Hk. destruct k as [|[|k]]; [lia|exact Hl|]. destruct s as [|b1 s]; [simpl in Hk; lia|].
    destruct k as [|k]; [cbn; now rewrite Hl3, Hl4|]. destruct s as [|b2 s]; [simpl in Hk; lia|].
    destruct k as [|k]; [cbn; now rewrite Hl4|]. destruct s as [|b3 s]; [simpl in Hk; lia|]. apply Hbig. lia. }
  destruct Hn as [Hn1 Hn]. split; [exact Hn1|]. split; [exists (skipn n s); now rewrite firstn_skipn|].
  split; [intros H0; assert (Hl : length (firstn n s) = 0) by (now rewrite H0); rewrite firstn_length_le in Hl; lia|].
  split; [exact Hno|]. rewrite firstn_length_le by lia. destruct Hn as [[Hc Hk]|[-> Hk]].
  - left. split; [now apply cstart_char_start|]. intros p' r' Hp Hcs.
    apply char_start_cstart in Hcs. rewrite (prefix_cases _ _ Hp) in Hcs.
    destruct (le_gt_dec (length p') n) as [|Hgt]; [assumption|]. rewrite Hk in Hcs; [discriminate|].
    rewrite Hp, app_length. lia.
  - right. split; [reflexivity|]. intros p' r' Hp Hpne Hcs.
    apply char_start_cstart in Hcs. rewrite (prefix_cases _ _ Hp) in Hcs.
    rewrite Hk in Hcs; [discriminate|]. rewrite Hp, app_length. destruct p'; [congruence|simpl; lia].
Qed.

(** ** The functions *)

Lemma utf8_step_nonzero s n : s <> [] -> utf8_step s = GoodChar n -> 1 <= n <= length s.
Proof.
  intros Hne H. apply utf8_step_good in H as (c & Hc & -> & Hs).
  assert (Hl := encode_char_length c). split; [lia|]. rewrite Hs, app_length. lia.
Qed.

Lemma utf8_ok_fuel_spec fuel : forall s, length s <= fuel -> utf8_ok_fuel fuel s = true <-> Utf8 s.
Proof.
  induction fuel as [|fuel IH]; intros s Hf.
  - destruct s as [|b s]; [|simpl in Hf; lia]. split; [|reflexivity]. intros _. exists []. split; [constructor|reflexivity].
  - destruct s as [|b s].
    + split; [|reflexivity]. intros _. exists []. split; [constructor|reflexivity].
    + set (s' := b :: s) in *. assert (Hne : s' <> []) by discriminate.
      change (utf8_ok_fuel (S fuel) s') with (match utf8_step s' with GoodChar n => utf8_ok_fuel fuel (skipn n s') | BadPart _ => false end).
      split.
      * destruct (utf8_step s') as [n|n] eqn:E; [|discriminate]. intros H.
        assert (Hn := utf8_step_nonzero Hne E). apply utf8_step_good in E as (c & Hc & Hl & Hs).
        apply IH in H; [|rewrite skipn_length; lia]. destruct H as (cs & Hcs & Heq).
        exists (c :: cs). split; [now constructor|]. rewrite Hs, Heq. reflexivity.
      * intros (cs & Hcs & Heq). destruct cs as [|c cs]; [rewrite Heq in Hne; now elim Hne|].
        inversion Hcs as [|? ? Hc Hcs']; subst. unfold encode_string in *. cbn [map concat] in Heq.
        rewrite Heq. rewrite utf8_step_char by exact Hc.
        apply IH.
        -- rewrite skipn_length. assert (Hl := encode_char_length c). rewrite <- Heq. lia.
        -- rewrite skipn_app, Nat.sub_diag, skipn_all. exists cs. split; [exact Hcs'|reflexivity].
Qed.

Lemma utf8_ok_spec s : utf8_ok s = true <-> Utf8 s.
Proof. apply utf8_ok_fuel_spec. lia. Qed.

Lemma replacement_char : replacement = encode_char 0xFFFD.
Proof. reflexivity. Qed.

Lemma lossy_fuel_spec fuel : forall s, length s <= fuel -> Lossy s (lossy_fuel fuel s).
Proof.
  induction fuel as [|fuel IH]; intros s Hf.
  - destruct s as [|b s]; [constructor|simpl in Hf; lia].
  - destruct s as [|b s]; [constructor|].
    set (s' := b :: s) in *. assert (Hne : s' <> []) by discriminate.
    change (lossy_fuel (S fuel) s') with (match utf8_step s' with GoodChar n => firstn n s' ++ lossy_fuel fuel (skipn n s') | BadPart n => replacement ++ lossy_fuel fuel (skipn n s') end).
    destruct (utf8_step s') as [n|n] eqn:E.
    + assert (Hn := utf8_step_nonzero Hne E). apply utf8_step_good in E as (c & Hc & Hl & Hs).
      replace (firstn n s') with (encode_char c).
      * rewrite Hs at 1. constructor; [exact Hc|]. apply IH. rewrite skipn_length. lia.
      * rewrite Hs, Hl, firstn_app, Nat.sub_diag, firstn_all, firstn_O. now rewrite app_nil_r.
    + destruct (utf8_step_bad Hne E) as [Hn Hb]. rewrite <- (firstn_skipn n s') at 1.
      rewrite replacement_char. constructor; [now rewrite firstn_skipn|]. apply IH. rewrite skipn_length. lia.
Qed.

Lemma from_utf8_lossy_spec s : Lossy s (from_utf8_lossy s).
Proof. apply lossy_fuel_spec. lia. Qed.

Lemma Utf8_nil : Utf8 [].
Proof. exists []. split; [constructor|reflexivity]. Qed.
Lemma Utf8_char c : scalar c -> Utf8 (encode_char c).
Proof. intros H. exists [c]. split; [now constructor|]. unfold encode_string. simpl. now rewrite app_nil_r. Qed.
Lemma Utf8_app a b : Utf8 a -> Utf8 b -> Utf8 (a ++ b).
Proof.
  intros (cs & Hc & ->) (ds & Hd & ->). exists (cs ++ ds). split; [now apply Forall_app|].
  unfold encode_string. now rewrite map_app, concat_app.
Qed.

Lemma Utf8_concat l : Forall Utf8 l -> Utf8 (concat l).
Proof. induction 1; simpl; [apply Utf8_nil|now apply Utf8_app]. Qed.

(** Characters can be read off uniquely. *)
Lemma encode_char_prefix c d r r' : scalar c -> scalar d ->
  encode_char c ++ r = encode_char d ++ r' -> encode_char c = encode_char d /\ r = r'.
Proof.
  intros Hc Hd H. assert (H1 := utf8_step_char r Hc). rewrite H, utf8_step_char in H1 by exact Hd. injection H1 as Hl.
  assert (Hf := f_equal (firstn (length (encode_char c))) H). rewrite <- Hl in Hf at 2.
  rewrite !firstn_app, !Nat.sub_diag, !firstn_all, !firstn_O, !app_nil_r in Hf.
  split; [exact Hf|]. rewrite Hf in H. now apply app_inv_head in H.
Qed.

(** Prefixes and suffixes: if a well-formed prefix is cut off, the rest is well-formed. *)
Lemma Utf8_app_inv a : forall b, Utf8 a -> Utf8 (a ++ b) -> Utf8 b.
Proof.
  intros b (cs & Hcs & ->). revert b. induction cs as [|c cs IH]; intros b H; [exact H|].
  inversion Hcs as [|? ? Hc Hcs']; subst. unfold encode_string in H. cbn [map concat] in H. rewrite <- app_assoc in H.
  fold (encode_string cs) in H. apply IH; [exact Hcs'|].
  destruct H as (ds & Hds & Heq). destruct ds as [|d ds].
  - destruct (encode_char c) eqn:E; [now apply encode_char_nonempty in E|discriminate].
  - inversion Hds; subst. unfold encode_string at 2 in Heq. cbn [map concat] in Heq.
    apply encode_char_prefix in Heq as [_ ->]; auto. exists ds. split; auto.
Qed.

Lemma Lossy_out_Utf8 s out : Lossy s out -> Utf8 out.
Proof.
  induction 1; [apply Utf8_nil|apply Utf8_app; [now apply Utf8_char|assumption]|].
  apply Utf8_app; [apply Utf8_char; unfold scalar; lia|assumption].
Qed.

Lemma bad_part_not_Utf8 p r : bad_part (p ++ r) p -> ~ Utf8 (p ++ r).
Proof.
  intros (_ & Hne & Hno & _) (cs & Hcs & Heq). destruct cs as [|c cs].
  - destruct p; [congruence|discriminate].
  - inversion Hcs; subst. unfold encode_string in Heq. cbn [map concat] in Heq. now apply (Hno c (concat (map encode_char cs))).
Qed.

Lemma Lossy_Utf8 s out : Lossy s out -> Utf8 s -> out = s.
Proof.
  induction 1 as [|c r out Hc H IH|p r out Hb H IH]; intros Hu; [reflexivity| |].
  - f_equal. apply IH. eapply Utf8_app_inv; [|exact Hu]. now apply Utf8_char.
  - exfalso. eapply bad_part_not_Utf8; eauto.
Qed.

Lemma lossy_valid s : Utf8 s -> from_utf8_lossy s = s.
Proof. intros H. eapply Lossy_Utf8; [apply from_utf8_lossy_spec|exact H]. Qed.

Lemma lossy_Utf8 s : Utf8 (from_utf8_lossy s).
Proof. eapply Lossy_out_Utf8. apply from_utf8_lossy_spec. Qed.

(** Lossy decoding is a function. *)
Lemma Lossy_fun s out : Lossy s out -> forall out', Lossy s out' -> out = out'.
Proof.
  induction 1 as [|c r out Hc H IH|p r out Hb H IH]; intros out' H'.
  - inversion H' as [|c r out0 Hc H0 Hr|p r out0 Hb H0 Hr]; [reflexivity| |].
    + destruct (encode_char c) eqn:E; [now apply encode_char_nonempty in E|discriminate].
    + destruct Hb as (_ & Hne & _). destruct p; [congruence|discriminate].
  - inversion H' as [Hn|c0 r0 out0 Hc0 H0 Hr|p r0 out0 Hb H0 Hr].
    + destruct (encode_char c) eqn:E; [now apply encode_char_nonempty in E|discriminate].
    + apply encode_char_prefix in Hr as [-> ->]; auto. f_equal. now apply IH.
    + exfalso. destruct Hb as (_ & _ & Hno & _). exact (Hno c r Hc Hr).
  - inversion H' as [Hn|c0 r0 out0 Hc0 H0 Hr|p0 r0 out0 Hb0 H0 Hr].
    + destruct Hb as (_ & Hne & _). destruct p; [congruence|discriminate].
    + exfalso. destruct Hb as (_ & _ & Hno & _). exact (Hno c0 r0 Hc0 (eq_sym Hr)).
    + assert (Hl : length p0 = length p).
      { rewrite Hr in Hb0. destruct Hb as (_ & Hne & _ & Hb), Hb0 as (_ & Hne0 & _ & Hb0).
        destruct Hb as [[Hcs Hmax]|[Hl Hno]], Hb0 as [[Hcs0 Hmax0]|[Hl0 Hno0]].
        - assert (Hm1 := Hmax p0 r0 (eq_sym Hr) Hcs0). assert (Hm2 := Hmax0 p r eq_refl Hcs). lia.
        - exfalso. exact (Hno0 p r eq_refl Hne Hcs).
        - exfalso. exact (Hno p0 r0 (eq_sym Hr) Hne0 Hcs0).
        - congruence. }
      assert (Hp : p0 = p /\ r0 = r).
      { assert (Hf := f_equal (firstn (length p)) Hr). rewrite <- Hl in Hf at 1.
        rewrite !firstn_app, !Nat.sub_diag, !firstn_all, !firstn_O, !app_nil_r in Hf. subst p0.
        split; [reflexivity|]. now apply app_inv_head in Hr. }
      destruct Hp as [-> ->]. f_equal. now apply IH.
Qed.

(** ** Character positions *)

(** The offsets and lengths of consecutive characters. *)
Fixpoint offsets (i : nat) (cs : list N) : list (nat * nat) :=
  match cs with
  | [] => []
  | c :: cs' => (i, length (encode_char c)) :: offsets (i + length (encode_char c)) cs'
  end.

Lemma char_indices_fuel_spec cs : forall fuel i, Forall scalar cs -> length (encode_string cs) <= fuel ->
  char_indices_fuel fuel i (encode_string cs) = offsets i cs.
Proof.
  induction cs as [|c cs IH]; intros fuel i Hcs Hf.
  - destruct fuel; reflexivity.
  - inversion Hcs as [|? ? Hc Hcs']; subst.
    assert (Hs : encode_string (c :: cs) = encode_char c ++ encode_string cs) by reflexivity.
    rewrite Hs in *. assert (Hl := encode_char_length c). rewrite app_length in Hf.
    destruct fuel as [|fuel]; [lia|].
    assert (Hstep : forall s, s <> [] -> char_indices_fuel (S fuel) i s =
       match utf8_step s with GoodChar n => (i, n) :: char_indices_fuel fuel (i + n) (skipn n s) | BadPart _ => [] end).
    { intros [|b s]; [congruence|reflexivity]. }
    rewrite Hstep.
    + rewrite utf8_step_char by exact Hc. cbn [offsets]. f_equal.
      rewrite skipn_app, Nat.sub_diag, skipn_all. apply IH; [exact Hcs'|]. lia.
    + destruct (encode_char c) eqn:E; [now apply encode_char_nonempty in E|discriminate].
Qed.

Lemma char_indices_spec cs : Forall scalar cs -> char_indices (encode_string cs) = offsets 0 cs.
Proof. intros H. apply char_indices_fuel_spec; auto. Qed.
