(** Base64: the codec is the standard's, and decoding is its exact inverse. *)
From Verif Require Import Base BaseProofs Utf8 SpecUtf8 Utf8Proofs SpecJson Base64.
Set Implicit Arguments.

Lemma list3_ind {A} (P : list A -> Prop) : P [] -> (forall a, P [a]) -> (forall a b, P [a; b]) ->
  (forall a b c l, P l -> P (a :: b :: c :: l)) -> forall l, P l.
Proof.
  intros H0 H1 H2 H3 l. enough (H : P l /\ (forall a, P (a :: l)) /\ forall a b, P (a :: b :: l)) by tauto.
  induction l as [|x l (IH0 & IH1 & IH2)]; repeat split; auto.
Qed.

Lemma list4_ind {A} (P : list A -> Prop) : P [] -> (forall a, P [a]) -> (forall a b, P [a; b]) -> (forall a b c, P [a; b; c]) ->
  (forall a b c d l, P l -> P (a :: b :: c :: d :: l)) -> forall l, P l.
Proof.
  intros H0 H1 H2 H3 H4 l.
  enough (H : P l /\ (forall a, P (a :: l)) /\ (forall a b, P (a :: b :: l)) /\ forall a b c, P (a :: b :: c :: l)) by tauto.
  induction l as [|x l (IH0 & IH1 & IH2 & IH3)]; repeat split; auto.
Qed.

Lemma forall_below (k : nat) (f : N -> bool) : forallb (fun n => f (N.of_nat n)) (seq 0 k) = true ->
  forall n, (n < N.of_nat k)%N -> f n = true.
Proof.
  intros H n Hn. rewrite forallb_forall in H. specialize (H (N.to_nat n)). rewrite N2Nat.id in H. apply H, in_seq. lia.
Qed.

Lemma b64_val_char n : (n < 64)%N -> b64_val (b64_char n) = Some n.
Proof.
  intros H. assert (E := forall_below 64 (fun n => match b64_val (b64_char n) with Some m => N.eqb m n | None => false end) eq_refl H).
  simpl in E. destruct (b64_val (b64_char n)) as [m|]; [|discriminate]. apply N.eqb_eq in E. now subst.
Qed.

Lemma b64_char_val b n : b64_val b = Some n -> (n < 64)%N /\ b64_char n = b.
Proof. destruct b; cbv; intros H; try discriminate; injection H as <-; split; reflexivity. Qed.

Lemma b64_char_alphabet n : (n < 64)%N -> nth_error alphabet (N.to_nat n) = Some (b64_char n).
Proof.
  intros H. assert (E := forall_below 64 (fun n => match nth_error alphabet (N.to_nat n) with Some c => Byte.eqb c (b64_char n) | None => false end) eq_refl H).
  simpl in E. destruct (nth_error alphabet (N.to_nat n)) as [c|]; [|discriminate]. f_equal. now destruct (byte_eqb_spec c (b64_char n)).
Qed.

(** Arithmetic of the groups: with [a = 4 x + y] and so on. *)
Lemma b64_decode_encode s : b64_decode (b64_encode s) = Some s.
Proof.
  induction s as [|a|a b|a b c s IH] using list3_ind; [reflexivity| | |].
  - assert (Ha := bN_lt a). cbn [b64_encode b64_decode].
    rewrite !b64_val_char by lia. replace ((bN a mod 4 * 16) mod 16 =? 0)%N with true by lia.
    do 2 f_equal. apply byte_of_N_eq. lia.
  - assert (Ha := bN_lt a). assert (Hb := bN_lt b). cbn [b64_encode b64_decode].
    rewrite !b64_val_char by lia. replace ((bN b mod 16 * 4) mod 4 =? 0)%N with true by lia.
    f_equal. f_equal; [apply byte_of_N_eq; lia|]. f_equal. apply byte_of_N_eq. lia.
  - assert (Ha := bN_lt a). assert (Hb := bN_lt b). assert (Hc := bN_lt c). cbn [b64_encode b64_decode].
    rewrite !b64_val_char by lia. rewrite IH.
    f_equal. f_equal; [apply byte_of_N_eq; lia|]. f_equal; [apply byte_of_N_eq; lia|]. f_equal. apply byte_of_N_eq. lia.
Qed.

Lemma b64_encode_decode cs : forall s, b64_decode cs = Some s -> b64_encode s = cs.
Proof.
  induction cs as [|a|a b|a b c|a b c d cs IH] using list4_ind; intros s H; cbn [b64_decode] in H.
  - now injection H as <-.
  - discriminate.
  - destruct (b64_val a) as [va|] eqn:Ea; [|discriminate]. destruct (b64_val b) as [vb|] eqn:Eb; [|discriminate].
    apply b64_char_val in Ea as [Ha <-]. apply b64_char_val in Eb as [Hb <-].
    destruct (N.eqb_spec (vb mod 16) 0) as [E|]; [|discriminate]. injection H as <-. cbn [b64_encode].
    rewrite bN_byte_of_N by lia. f_equal; [f_equal; lia|]. f_equal. f_equal. lia.
  - destruct (b64_val a) as [va|] eqn:Ea; [|discriminate]. destruct (b64_val b) as [vb|] eqn:Eb; [|discriminate].
    destruct (b64_val c) as [vc|] eqn:Ec; [|discriminate].
    apply b64_char_val in Ea as [Ha <-]. apply b64_char_val in Eb as [Hb <-]. apply b64_char_val in Ec as [Hc <-].
    destruct (N.eqb_spec (vc mod 4) 0) as [E|]; [|discriminate]. injection H as <-. cbn [b64_encode].
    rewrite !bN_byte_of_N by lia. f_equal; [f_equal; lia|]. f_equal; [f_equal; lia|]. f_equal. f_equal. lia.
  - destruct (b64_val a) as [va|] eqn:Ea; [|discriminate]. destruct (b64_val b) as [vb|] eqn:Eb; [|discriminate].
    destruct (b64_val c) as [vc|] eqn:Ec; [|discriminate]. destruct (b64_val d) as [vd|] eqn:Ed; [|discriminate].
    apply b64_char_val in Ea as [Ha <-]. apply b64_char_val in Eb as [Hb <-]. apply b64_char_val in Ec as [Hc <-]. apply b64_char_val in Ed as [Hd <-].
    destruct (b64_decode cs) as [r|]; [|discriminate]. injection H as <-. cbn [b64_encode]. rewrite (IH r eq_refl).
    rewrite !bN_byte_of_N by lia. f_equal; [f_equal; lia|]. f_equal; [f_equal; lia|]. f_equal; [f_equal; lia|]. f_equal. f_equal. lia.
Qed.

Lemma bits_add i j x y : (y < 2 ^ N.of_nat j)%N -> bits (i + j) (x * 2 ^ N.of_nat j + y) = bits i x ++ bits j y.
Proof.
  intros Hy. induction i as [|i IH]; simpl.
  - (* the low bits *)
    enough (H : forall k, k <= j -> bits k (x * 2 ^ N.of_nat j + y) = bits k y) by (apply H; lia).
    induction k as [|k IHk]; intros Hk; [reflexivity|]. simpl. rewrite IHk by lia. f_equal.
    rewrite <- (N.mod_pow2_bits_low _ (N.of_nat j)) by lia.
    rewrite N.add_comm, N.mod_add by (apply N.pow_nonzero; lia).
    now rewrite N.mod_small.
  - f_equal; [|exact IH]. replace (N.of_nat (i + j)) with (N.of_nat i + N.of_nat j)%N by lia.
    rewrite <- N.div_pow2_bits. f_equal. rewrite N.div_add_l by (apply N.pow_nonzero; lia).
    rewrite N.div_small by exact Hy. lia.
Qed.

Lemma bits_split i j n : bits (i + j) n = bits i (n / 2 ^ N.of_nat j) ++ bits j (n mod 2 ^ N.of_nat j).
Proof.
  rewrite <- bits_add by (apply N.mod_lt, N.pow_nonzero; lia). f_equal.
  rewrite N.mul_comm. apply N.div_mod, N.pow_nonzero. lia.
Qed.

Lemma b64_encode_spec s : Base64 s (b64_encode s).
Proof.
  assert (S62 : forall b, bits 8 (bN b) = bits 6 (bN b / 4) ++ bits 2 (bN b mod 4)) by (intros; apply (bits_split 6 2)).
  assert (S44 : forall b, bits 8 (bN b) = bits 4 (bN b / 16) ++ bits 4 (bN b mod 16)) by (intros; apply (bits_split 4 4)).
  assert (S26 : forall b, bits 8 (bN b) = bits 2 (bN b / 64) ++ bits 6 (bN b mod 64)) by (intros; apply (bits_split 2 6)).
  assert (A24 : forall x y, (y < 16)%N -> bits 6 (x * 16 + y) = bits 2 x ++ bits 4 y) by (intros; now apply (bits_add 2 4)).
  assert (A42 : forall x y, (y < 4)%N -> bits 6 (x * 4 + y) = bits 4 x ++ bits 2 y) by (intros; now apply (bits_add 4 2)).
  assert (Hal : forall n, (n < 64)%N -> (fun v c => nth_error alphabet (N.to_nat v) = Some c) n (b64_char n))
    by (intros; now apply b64_char_alphabet).
  change (fun b => bits 8 (Byte.to_N b)) with (fun b => bits 8 (bN b)).
  unfold Base64. change (fun b => bits 8 (Byte.to_N b)) with (fun b => bits 8 (bN b)).
  induction s as [|a|a b|a b c s IH] using list3_ind.
  - exists [], []. repeat split; simpl; auto; lia.
  - assert (Ha := bN_lt a). exists [bN a / 4; bN a mod 4 * 16]%N, [false; false; false; false].
    split; [cbn [b64_encode]; repeat constructor; apply b64_char_alphabet; lia|]. split; [|split; [simpl; lia|repeat constructor]].
    cbn [flat_map]. rewrite S62, <- !app_assoc. f_equal. rewrite app_nil_r. simpl app at 2.
    rewrite <- (N.add_0_r (bN a mod 4 * 16)), A24 by lia. reflexivity.
  - assert (Ha := bN_lt a). assert (Hb := bN_lt b). exists [bN a / 4; bN a mod 4 * 16 + bN b / 16; bN b mod 16 * 4]%N, [false; false].
    split; [cbn [b64_encode]; repeat constructor; apply b64_char_alphabet; lia|]. split; [|split; [simpl; lia|repeat constructor]].
    cbn [flat_map]. rewrite (S62 a), (S44 b), <- !app_assoc. f_equal. rewrite app_nil_r. rewrite A24 by lia. rewrite <- app_assoc. do 2 f_equal.
    rewrite <- (N.add_0_r (bN b mod 16 * 4)), A42 by lia. reflexivity.
  - assert (Ha := bN_lt a). assert (Hb := bN_lt b). assert (Hc := bN_lt c). destruct IH as (vals & pad & H1 & H2 & H3).
    exists ([bN a / 4; bN a mod 4 * 16 + bN b / 16; bN b mod 16 * 4 + bN c / 64; bN c mod 64]%N ++ vals), pad.
    split; [cbn [b64_encode app]; repeat (constructor; [apply b64_char_alphabet; lia|]); exact H1|]. split; [|exact H3].
    cbn [flat_map app]. rewrite H2, (S62 a), (S44 b), (S26 c), A24, A42 by lia. now rewrite <- !app_assoc.
Qed.
