(** C76, C77: the filters and the infilling of datagen.py. *)
From Coq Require Import Reals Psatz Permutation.
From Flocq Require Import BinarySingleNaN.
From Coq.Strings Require Import String.
From Verif Require Import Base BaseProofs F64 F64Proofs FloatErr Utf8 SpecUtf8 Utf8Proofs Processor SpecJson Serde Regex RegexJoin Cli SpecCli CountProofs CliProofs PropCli Scripts SpecScripts PropScripts
  Datagen SpecDatagen DatagenProofs.
Set Implicit Arguments.
Local Open Scope list_scope.
Local Open Scope nat_scope.
Local Notation length := List.length.
Local Ltac splits := repeat match goal with |- _ /\ _ => split end.

(** ** Sifting *)
Lemma Sifted_filter {A} (P : A -> Prop) (f : A -> bool) l : (forall a, In a l -> f a = true <-> P a) -> Sifted P l (filter f l).
Proof.
  induction l as [|a l IH]; intros H; [constructor|]. cbn [filter]. assert (Ha := H a (or_introl eq_refl)). specialize (IH (fun b Hb => H b (or_intror Hb))).
  destruct (f a); [apply Sifted_in; [now apply Ha|exact IH]|apply Sifted_out; [|exact IH]]. intros HP. apply Ha in HP. discriminate.
Qed.
Lemma Sifted_fun {A} (P : A -> Prop) l x y : Sifted P l x -> Sifted P l y -> x = y.
Proof. intros H. revert y. induction H as [|a l x Ha H IH|a l x Ha H IH]; intros y Hy; inversion Hy; subst; try contradiction; f_equal; auto. Qed.
Lemma filter_length_le' {A} (f : A -> bool) l : length (filter f l) <= length l.
Proof. induction l as [|a l IH]; simpl; [lia|]. destruct (f a); simpl; lia. Qed.
Lemma at_most_filter {A} (P : A -> Prop) (f : A -> bool) a b l : (forall x, f x = true <-> P x) -> at_most a b P l <-> b * length (filter f l) <= a * length l.
Proof.
  intros H. assert (HS := @Sifted_filter A P f l (fun x _ => H x)). split.
  - intros (k & Hk & Hl). now rewrite (Sifted_fun HS Hk).
  - intros Hl. exists (filter f l). split; [exact HS|exact Hl].
Qed.

(** ** The comparisons *)
Definition foreignb (c : N) : bool := negb (in_block 0 0x7F c || (in_block 0x4E00 0x9FFF c || in_block 0x3400 0x4DBF c || in_block 0xF900 0xFAFF c)).
Lemma in_block_iff lo hi c : in_block lo hi c = true <-> (lo <= c <= hi)%N.
Proof. unfold in_block. rewrite andb_true_iff, !N.leb_le. tauto. Qed.
Lemma foreignb_iff c : foreignb c = true <-> foreign c.
Proof.
  unfold foreignb, foreign. rewrite negb_true_iff, <- not_true_iff_false, !orb_true_iff, !in_block_iff. lia.
Qed.
Lemma has_many_spec text : (Z.of_nat (length text) <= 2 ^ 49)%Z -> has_many_non_chinese_non_ascii text (literal 1 5) = true <-> ~ at_most 1 5 foreign text.
Proof.
  intros Hl. unfold has_many_non_chinese_non_ascii.
  assert (H : forall l t o, fold_left (fun t c => let '(total, other) := t in
    if in_block 0x0000 0x007F c then (S total, other)
    else if in_block 0x4E00 0x9FFF c || in_block 0x3400 0x4DBF c || in_block 0xF900 0xFAFF c then (S total, other)
    else (S total, S other)) l (t, o) = (length l + t, length (filter foreignb l) + o)).
  { induction l as [|c l IH]; intros t o; [reflexivity|]. cbn [fold_left filter].
    assert (Ef : foreignb c = negb (in_block 0 0x7F c || (in_block 0x4E00 0x9FFF c || in_block 0x3400 0x4DBF c || in_block 0xF900 0xFAFF c))) by reflexivity.
    destruct (in_block 0 127 c); [|destruct (in_block 0x4E00 0x9FFF c || in_block 0x3400 0x4DBF c || in_block 0xF900 0xFAFF c)]; cbn [negb orb] in Ef; rewrite IH, Ef; cbn [length]; f_equal; lia. }
  rewrite H, !Nat.add_0_r. rewrite (at_most_filter foreign foreignb 1 5 text foreignb_iff). assert (Hf := filter_length_le' foreignb text).
  destruct (Nat.eqb_spec (length text) 0) as [E|E]; [split; [discriminate|lia]|].
  rewrite fifth_exceeded by lia. lia.
Qed.
Lemma sum_concat (ms : list (list N)) : forall n, fold_left (fun n m => n + length m) ms n = n + length (List.concat ms).
Proof. induction ms as [|m ms IH]; intros n; simpl; [lia|]. rewrite IH, app_length. lia. Qed.
Lemma suspicious_spec finds text : text <> [] -> (Z.of_nat (length text) <= 2 ^ 49)%Z -> Forall (fun findall => length (List.concat (findall text)) <= length text) finds ->
  exists b, suspicious finds text = Some b /\ (b = false <-> Forall (fun findall => unsuspicious text (findall text)) finds).
Proof.
  intros Ht Hl HF. assert (Hp : 0 < length text) by (destruct text; [congruence|simpl; lia]). induction HF as [|f finds Hf HF (b & E & IH)]; [exists false; split; [reflexivity|]; split; [constructor|reflexivity]|].
  cbn [suspicious]. rewrite sum_concat, Nat.add_0_l.
  destruct (existsb (fun m => 256 <? length m) (f text)) eqn:Ee.
  - exists true. split; [reflexivity|]. split; [discriminate|]. intros H. inversion H as [|? ? [H1 _] _]; subst. apply existsb_exists in Ee as (m & Hm & Hlt). apply Nat.ltb_lt in Hlt. rewrite Forall_forall in H1. apply H1 in Hm. lia.
  - assert (H1 : Forall (fun m => length m <= 256) (f text)).
    { apply Forall_forall. intros m Hm. apply Nat.nlt_ge. intros Hlt. rewrite <- not_true_iff_false in Ee. apply Ee. apply existsb_exists. exists m. split; [exact Hm|]. now apply Nat.ltb_lt. }
    destruct (Nat.eqb_spec (length text) 0) as [E0|_]; [lia|].
    destruct (fltb fhalf (ratio_of (length (List.concat (f text))) (length text))) eqn:Eh.
    + exists true. split; [reflexivity|]. split; [discriminate|]. intros H. inversion H as [|? ? [_ H2] _]; subst. apply half_exceeded in Eh; lia.
    + exists b. split; [exact E|]. rewrite IH. split; intros H; [constructor; [split; [exact H1|]|exact H]|now inversion H].
      apply Nat.nlt_ge. intros Hlt. rewrite <- not_true_iff_false in Eh. apply Eh. apply half_exceeded; lia.
Qed.

(** ** The filters *)
Definition total (t : stats) : nat := size_filter t + num_lines_filter t + alphanum_filter t + number_filter t + regex_filter t + unicode_filter t.
Definition kept is_digit findalls lang (s : stack_sample) : Prop :=
  worth_keeping is_digit findalls lang (content s) (size s) (avg_line_length s) (max_line_length s) (alphanum_fraction s).
(** A sample of another language, of proper size, with more than 4096 lines. *)
Definition long lang (s : stack_sample) : Prop := (16 <= size s <= 262144)%Z /\ ~ is_data lang /\ 4096 < line_ends (content s).
(** What the sample and the expressions are like: numbers, a text of less than 2^49 characters that is not empty, matches without overlap. *)
Definition usable (findalls : list (list N -> list (list N))) (s : stack_sample) : Prop :=
  content s <> [] /\ (Z.of_nat (length (content s)) <= 2 ^ 49)%Z /\ is_finite (avg_line_length s) = true /\ is_finite (alphanum_fraction s) = true /\
  Forall (fun findall => length (List.concat (findall (content s))) <= length (content s)) findalls.

Lemma data_iff lang : existsb (String.eqb lang) data_languages = true <-> is_data lang.
Proof.
  unfold is_data. change ["json"; "yaml"; "toml"; "sql"; "r"; "hcl"]%string with data_languages. rewrite existsb_exists. split.
  - intros (x & Hx & E). apply String.eqb_eq in E. now subst.
  - intros H. exists lang. split; [exact H|apply String.eqb_refl].
Qed.
Lemma lt_iff (a b : f64) : is_finite a = true -> is_finite b = true -> fltb a b = true <-> (B2R a < B2R b)%R.
Proof. intros Fa Fb. rewrite fltb_finite by assumption. apply Rlt_bool_true_iff. Qed.
Lemma ints : (is_finite (f64_of_Z 100) = true /\ B2R (f64_of_Z 100) = 100%R) /\ (is_finite (f64_of_Z 10) = true /\ B2R (f64_of_Z 10) = 10%R) /\ (is_finite (literal 1 4) = true /\ B2R (literal 1 4) = (1 / 4)%R).
Proof.
  split; [apply of_Z_exact; lia|]. split; [apply of_Z_exact; lia|]. split; [vm_compute; reflexivity|].
  assert (E : B2SF (literal 1 4) = SpecFloat.S754_finite false 4503599627370496 (-54)) by (vm_compute; reflexivity). rewrite <- SF2R_B2SF, E. unfold SF2R, Defs.F2R. simpl. lra.
Qed.
Section Stack.
  Variable is_digit : N -> bool.
  Variable findalls : list (list N -> list (list N)).
  Variable lang : string.
  Lemma filters_spec s t : usable findalls s -> exists t' b, filters is_digit findalls lang s t = Some (t', b) /\ (b = true <-> kept is_digit findalls lang s) /\
    (long lang s /\ total t' = total t + (if b then 0 else 1) + 1 \/ ~ long lang s /\ total t' = total t + (if b then 0 else 1)).
  Proof.
    intros (Hne & Hl & Fa & Ff & Ho). destruct ints as ((F1 & E1) & (F2 & E2) & (F3 & E3)). unfold filters. set (text := content s) in *. fold (line_ends text).
    change (mb 1 / 4)%Z with 262144%Z. assert (Hn0 : exists n0, n0 = total t) by eauto. destruct Hn0 as (n0 & En0). rewrite <- En0.
    destruct ((size s <? 16) || (262144 <? size s))%Z eqn:Es.
    { exists (count_size t), false. apply orb_true_iff in Es. rewrite !Z.ltb_lt in Es. splits; [reflexivity|split; [discriminate|]|].
      - intros (H & _). lia.
      - right. split; [intros (H & _); lia|rewrite ?En0; unfold total; simpl; lia]. }
    apply orb_false_iff in Es. rewrite !Z.ltb_ge in Es.
    destruct (existsb (String.eqb lang) data_languages) eqn:Ed.
    1: apply data_iff in Ed. 2: (assert (Hd : ~ is_data lang) by (rewrite <- data_iff; congruence); clear Ed).
    1: destruct (Nat.ltb_spec 256 (line_ends text)) as [Hlt|Hge]; cbn [negb andb].
    { exists (count_lines t), false. splits; [reflexivity|split; [discriminate|]|].
      - intros (_ & H & _). specialize (H Ed). fold text in H. lia.
      - right. split; [intros (_ & H & _); contradiction|rewrite ?En0; unfold total; simpl; lia]. }
    2: cbn [negb andb].
    1: set (t1 := t); assert (Ht : ~ long lang s /\ total t1 = n0) by (split; [intros (_ & H & _); contradiction|now rewrite En0]); assert (Hdata : is_data lang -> line_ends text <= 256) by auto.
    2: set (t1 := if 4096 <? line_ends text then count_lines t else t); assert (Ht : long lang s /\ total t1 = n0 + 1 \/ ~ long lang s /\ total t1 = n0) by
      (unfold t1, long; fold text; destruct (Nat.ltb_spec 4096 (line_ends text)) as [Hlt|Hge]; [left; splits; auto; try lia; rewrite ?En0; unfold total; simpl; lia|right; split; [lia|now rewrite En0]]);
      assert (Hdata : is_data lang -> line_ends text <= 256) by (intros; contradiction).
    1: assert (Ht' : long lang s /\ total t1 = n0 + 1 \/ ~ long lang s /\ total t1 = n0) by (right; exact Ht); clear Ht; rename Ht' into Ht.
    all: clearbody t1; clear En0.
    all: assert (Hfin : forall t' (b : bool), (b = true <-> kept is_digit findalls lang s) -> total t' = total t1 + (if b then 0 else 1) ->
      exists t'' b', Some (t', b) = Some (t'', b') /\ (b' = true <-> kept is_digit findalls lang s) /\
      (long lang s /\ total t'' = n0 + (if b' then 0 else 1) + 1 \/ ~ long lang s /\ total t'' = n0 + (if b' then 0 else 1))) by
      (intros t' b Hb Htot; exists t', b; splits; auto; destruct Ht as [[H1 H2]|[H1 H2]]; [left|right]; (split; [exact H1|lia])).
    all: destruct (fltb (f64_of_Z 100) (avg_line_length s) || fltb (avg_line_length s) (f64_of_Z 10) || (1000 <? max_line_length s)%Z) eqn:Ea.
    1,3: (apply Hfin; [split; [discriminate|]|rewrite ?En0; unfold total; simpl; lia]; intros (_ & _ & H3 & H4 & _); rewrite !orb_true_iff, (lt_iff _ _ F1 Fa), (lt_iff _ _ Fa F2), E1, E2, Z.ltb_lt in Ea; destruct Ea as [[Ea|Ea]|Ea]; lra || lia).
    all: rewrite !orb_false_iff in Ea; destruct Ea as [[Ea1 Ea2] Ea3]; rewrite Z.ltb_ge in Ea3; rewrite <- not_true_iff_false, (lt_iff _ _ F1 Fa), E1 in Ea1; rewrite <- not_true_iff_false, (lt_iff _ _ Fa F2), E2 in Ea2.
    all: destruct (fltb (alphanum_fraction s) (literal 1 4)) eqn:Eal.
    1,3: (apply Hfin; [split; [discriminate|]|rewrite ?En0; unfold total; simpl; lia]; intros (_ & _ & _ & _ & H5 & _); rewrite (lt_iff _ _ Ff F3), E3 in Eal; lra).
    all: rewrite <- not_true_iff_false, (lt_iff _ _ Ff F3), E3 in Eal.
    all: assert (Hdig : at_most 3 10 (fun c => is_digit c = true) text <-> 10 * length (filter is_digit text) <= 3 * length text) by (apply at_most_filter; reflexivity).
    all: assert (Hle := filter_length_le' is_digit text).
    all: assert (Hnum := @three_tenths_exceeded (length (filter is_digit text)) (length text) Hl Hle).
    all: destruct (fltb (fmul (literal 3 10) (f64_of_nat (length text))) (f64_of_nat (length (filter is_digit text)))) eqn:En.
    1,3: (apply Hfin; [split; [discriminate|]|rewrite ?En0; unfold total; simpl; lia]; intros (_ & _ & _ & _ & _ & H6 & _); fold text in H6; apply Hdig in H6; destruct Hnum as [Hnum _]; specialize (Hnum eq_refl); lia).
    all: assert (Hdig' : at_most 3 10 (fun c => is_digit c = true) text) by (apply Hdig; apply Nat.nlt_ge; intros Hlt; apply Hnum in Hlt; discriminate).
    all: destruct (@suspicious_spec findalls text Hne Hl Ho) as (b & -> & Hb); destruct b.
    1,3: (apply Hfin; [split; [discriminate|]|rewrite ?En0; unfold total; simpl; lia]; intros (_ & _ & _ & _ & _ & _ & H7 & _); fold text in H7; apply Hb in H7; discriminate).
    all: assert (Hsus := proj1 Hb eq_refl); assert (Hmany := @has_many_spec text Hl); destruct (has_many_non_chinese_non_ascii text (literal 1 5)) eqn:Em.
    1,3: (apply Hfin; [split; [discriminate|]|rewrite ?En0; unfold total; simpl; lia]; intros (_ & _ & _ & _ & _ & _ & _ & H8); fold text in H8; now apply Hmany in H8).
    all: assert (Hun : at_most 1 5 foreign text) by (apply (at_most_filter foreign foreignb 1 5 text foreignb_iff); apply Nat.nlt_ge; intros Hlt; assert (Hc : ~ at_most 1 5 foreign text) by
      (rewrite (at_most_filter foreign foreignb 1 5 text foreignb_iff); lia); apply Hmany in Hc; discriminate).
    all: apply Hfin; [split; [intros _|reflexivity]|rewrite ?En0; unfold total; simpl; lia]; unfold kept, worth_keeping; fold text; splits; auto; lra || lia.
  Qed.
  Lemma loop_spec train test : forall samples, Forall (usable findalls) samples -> forall written t n, exists r seen rest good all longs,
    stack_loop is_digit findalls lang train test written t n samples = Some r /\ samples = seen ++ rest /\ visited r = n + length seen /\ Sifted (kept is_digit findalls lang) seen good /\
    Sifted (kept is_digit findalls lang) samples all /\ Sifted (long lang) seen longs /\ total (final_stats r) + length good = total t + length seen + length longs /\
    write_samples both_splits train test written (map (fun s => encode_string (content s)) all) = Some (test_file r, train_file r) /\
    bytes_written r = (written + Z.of_nat (length (test_file r)) + Z.of_nat (length (train_file r)))%Z /\ (rest <> [] -> test <= bytes_written r /\ test + train <= bytes_written r)%Z.
  Proof.
    induction samples as [|s samples IH]; intros HF written t n.
    - exists (StackResult [] [] written t n), [], [], [], [], []. cbn. splits; auto; try constructor; try lia; congruence.
    - inversion HF as [|? ? Hs HF']; subst. specialize (IH HF'). destruct (@filters_spec s t Hs) as (t' & b & E & Hb & Ht). cbn [stack_loop]. rewrite E. destruct b.
      + assert (Hk : kept is_digit findalls lang s) by now apply Hb.
        set (w := (written + Z.of_nat (length (encode_string (content s))) + 1)%Z). destruct (IH w t' (S n)) as (r & seen & rest & good & all & longs & H1 & H2 & H3 & H4 & H5 & H6 & H7 & H8 & H9 & H10).
        destruct (Z.ltb_spec written test) as [Hw|Hw]; [|destruct (Z.ltb_spec written (test + train)) as [Hw2|Hw2]].
        * rewrite H1. cbn [option_map]. destruct Ht as [[Hlg Ht]|[Hlg Ht]]; [eexists; exists (s :: seen), rest, (s :: good), (s :: all), (s :: longs)|eexists; exists (s :: seen), rest, (s :: good), (s :: all), longs];
            (splits; [reflexivity|now rewrite H2|cbn; lia|now constructor|now constructor|now constructor|cbn; lia| | |exact H10]; [|cbn; rewrite app_length; cbn [length]; unfold w in H9; lia]);
            cbn [map write_samples test_file train_file]; fold w; rewrite H8; rewrite (proj2 (Z.ltb_lt _ _) Hw); reflexivity.
        * rewrite H1. cbn [option_map]. destruct Ht as [[Hlg Ht]|[Hlg Ht]]; [eexists; exists (s :: seen), rest, (s :: good), (s :: all), (s :: longs)|eexists; exists (s :: seen), rest, (s :: good), (s :: all), longs];
            (splits; [reflexivity|now rewrite H2|cbn; lia|now constructor|now constructor|now constructor|cbn; lia| | |exact H10]; [|cbn; rewrite app_length; cbn [length]; unfold w in H9; lia]);
            cbn [map write_samples test_file train_file]; fold w; rewrite H8; rewrite (proj2 (Z.ltb_ge _ _) Hw), (proj2 (Z.ltb_lt _ _) Hw2); reflexivity.
        * destruct Ht as [[Hlg Ht]|[Hlg Ht]]; [exists (StackResult [] [] written t' (S n)), [s], samples, [s], (s :: all), [s]|exists (StackResult [] [] written t' (S n)), [s], samples, [s], (s :: all), []];
            (splits; [reflexivity|reflexivity|cbn; lia|first [apply Sifted_in; [assumption|apply Sifted_nil]|apply Sifted_out; [assumption|apply Sifted_nil]]|now constructor|first [apply Sifted_in; [assumption|apply Sifted_nil]|apply Sifted_out; [assumption|apply Sifted_nil]]|cbn; lia| |cbn; lia|cbn; lia]);
            cbn [map write_samples]; rewrite (proj2 (Z.ltb_ge _ _) Hw), (proj2 (Z.ltb_ge _ _) Hw2); reflexivity.
      + assert (Hk : ~ kept is_digit findalls lang s) by (intros H; apply Hb in H; discriminate). destruct (IH written t' (S n)) as (r & seen & rest & good & all & longs & H1 & H2 & H3 & H4 & H5 & H6 & H7 & H8 & H9 & H10).
        destruct Ht as [[Hlg Ht]|[Hlg Ht]]; [exists r, (s :: seen), rest, good, all, (s :: longs)|exists r, (s :: seen), rest, good, all, longs];
          (splits; [exact H1|now rewrite H2|cbn; lia|now apply Sifted_out|now apply Sifted_out|now constructor|cbn; lia|exact H8|exact H9|exact H10]).
  Qed.
End Stack.

(** ** C76: the samples that are written are those worth keeping, the fewest that fill the quotas. *)
Theorem C76_files : forall is_digit findalls lang train test samples, (0 <= train)%Z -> Forall (usable findalls) samples ->
  exists r good k m, generate_the_stack is_digit findalls lang train test samples = Some r /\ Sifted (kept is_digit findalls lang) samples good /\
    let texts := map (fun s => encode_string (content s)) good in
    fewest test texts k /\ fewest (test + train) texts m /\ k <= m /\
    test_file r = stored (firstn k texts) /\ train_file r = stored (skipn k (firstn m texts)) /\ bytes_written r = stored_bytes (firstn m texts).
Proof.
  intros is_digit findalls lang train test samples Ht HF. destruct (@loop_spec is_digit findalls lang train test samples HF 0 no_stats 0) as (r & seen & rest & good & all & longs & H1 & _ & _ & _ & H5 & _ & _ & H8 & H9 & _).
  exists r, all. set (texts := map (fun s => encode_string (content s)) all) in *. destruct (@write_samples_spec train test texts Ht 0) as (k & m & Hk & Hm & Hle & E). rewrite !Z.sub_0_r in *. rewrite E in H8. injection H8 as H8 H8'.
  exists k, m. cbv zeta. fold texts. splits; auto. rewrite H9, <- H8, <- H8', stored_bytes_eq.
  assert (Em : stored (firstn m texts) = stored (firstn k texts) ++ stored (skipn k (firstn m texts))).
  { rewrite <- (firstn_skipn k (firstn m texts)) at 1. rewrite firstn_firstn, Nat.min_l by exact Hle. unfold stored. now rewrite flat_map_app. }
  rewrite Em, app_length. lia.
Qed.
Print Assumptions C76_files.
(** The numbers at the end: every sample that was seen is counted once if it is not kept; one that is long is counted in addition, kept or not. *)
Theorem C76_counts : forall is_digit findalls lang train test samples, Forall (usable findalls) samples ->
  exists r seen rest good longs, generate_the_stack is_digit findalls lang train test samples = Some r /\ samples = seen ++ rest /\ visited r = length seen /\
    (rest <> [] -> (test + train <= bytes_written r)%Z) /\ Sifted (kept is_digit findalls lang) seen good /\ Sifted (long lang) seen longs /\
    total (final_stats r) + length good = visited r + length longs.
Proof.
  intros is_digit findalls lang train test samples HF. destruct (@loop_spec is_digit findalls lang train test samples HF 0 no_stats 0) as (r & seen & rest & good & all & longs & H1 & H2 & H3 & H4 & H5 & H6 & H7 & H8 & H9 & H10).
  exists r, seen, rest, good, longs. splits; auto; [intros Hr; apply H10 in Hr; lia|]. cbn in H7. lia.
Qed.
Print Assumptions C76_counts.
(** Every counter by itself: the samples of which it is the first fault; that of the lines also has the long samples. *)
Definition counter (f : fault) (t : stats) : nat :=
  match f with
  | Bad_size => size_filter t
  | Bad_lines => num_lines_filter t
  | Bad_alphanum => alphanum_filter t
  | Bad_number => number_filter t
  | Bad_regex => regex_filter t
  | Bad_unicode => unicode_filter t
  end.
Definition first_fault is_digit findalls lang (f : fault) (s : stack_sample) : Prop :=
  let ok := passes is_digit findalls lang (content s) (size s) (avg_line_length s) (max_line_length s) (alphanum_fraction s) in
  ~ ok f /\ Forall ok (before f).
Section Counters.
  Variable is_digit : N -> bool.
  Variable findalls : list (list N -> list (list N)).
  Variable lang : string.
  Let data := existsb (String.eqb lang) data_languages.
  Definition passesb (s : stack_sample) (f : fault) : bool :=
    match f with
    | Bad_size => negb ((size s <? 16) || (mb 1 / 4 <? size s))%Z
    | Bad_lines => negb (data && (256 <? count_occ N.eq_dec (content s) 0x0A%N)) &&
        negb (fltb (f64_of_Z 100) (avg_line_length s) || fltb (avg_line_length s) (f64_of_Z 10) || (1000 <? max_line_length s)%Z)
    | Bad_alphanum => negb (fltb (alphanum_fraction s) (literal 1 4))
    | Bad_number => negb (fltb (fmul (literal 3 10) (f64_of_nat (length (content s)))) (f64_of_nat (length (filter is_digit (content s)))))
    | Bad_regex => match suspicious findalls (content s) with Some false => true | _ => false end
    | Bad_unicode => negb (has_many_non_chinese_non_ascii (content s) (literal 1 5))
    end.
  Lemma passesb_iff s f : usable findalls s -> passesb s f = true <-> passes is_digit findalls lang (content s) (size s) (avg_line_length s) (max_line_length s) (alphanum_fraction s) f.
  Proof.
    intros (Hne & Hl & Fa & Ff & Ho). destruct ints as ((F1 & E1) & (F2 & E2) & (F3 & E3)). destruct f; cbn [passesb passes].
    - change (mb 1 / 4)%Z with 262144%Z. rewrite negb_true_iff, orb_false_iff, !Z.ltb_ge. lia.
    - fold (line_ends (content s)). rewrite andb_true_iff, !negb_true_iff, andb_false_iff, !orb_false_iff, Z.ltb_ge, Nat.ltb_ge, <- !not_true_iff_false, (lt_iff _ _ F1 Fa), (lt_iff _ _ Fa F2), E1, E2. unfold data. rewrite data_iff.
      split.
      + intros (H1 & (H2 & H3) & H4). splits; auto; [intros Hd; destruct H1 as [H1|H1]; [contradiction|exact H1]|lra|lra].
      + intros (H1 & H2 & H3). splits; auto; [|lra|lra]. destruct (in_dec string_dec lang ["json"; "yaml"; "toml"; "sql"; "r"; "hcl"]%string) as [Hd|Hd]; [right; now apply H1|left; exact Hd].
    - rewrite negb_true_iff, <- not_true_iff_false, (lt_iff _ _ Ff F3), E3. lra.
    - rewrite negb_true_iff, <- not_true_iff_false, (@three_tenths_exceeded (length (filter is_digit (content s))) (length (content s)) Hl (filter_length_le' is_digit _)).
      rewrite (at_most_filter (fun c => is_digit c = true) is_digit 3 10 (content s)) by reflexivity. lia.
    - destruct (@suspicious_spec findalls (content s) Hne Hl Ho) as (b & -> & Hb). rewrite <- Hb. destruct b; split; congruence.
    - rewrite negb_true_iff, <- not_true_iff_false, (@has_many_spec (content s) Hl), (at_most_filter foreign foreignb 1 5 (content s) foreignb_iff). lia.
  Qed.
  Definition first_faultb (s : stack_sample) (f : fault) : bool := negb (passesb s f) && forallb (passesb s) (before f).
  Lemma first_faultb_iff s f : usable findalls s -> first_faultb s f = true <-> first_fault is_digit findalls lang f s.
  Proof.
    intros Hu. unfold first_faultb, first_fault. cbv zeta. rewrite andb_true_iff, negb_true_iff, <- not_true_iff_false, (passesb_iff f Hu), forallb_forall, Forall_forall.
    split; intros [H1 H2]; (split; [exact H1|]); intros x Hx; apply (passesb_iff x Hu); auto.
  Qed.
  Definition longb (s : stack_sample) : bool := passesb s Bad_size && (negb data && (4096 <? count_occ N.eq_dec (content s) 0x0A%N)).
  Lemma longb_iff s : usable findalls s -> longb s = true <-> long lang s.
  Proof.
    intros Hu. unfold longb, long. rewrite !andb_true_iff, (passesb_iff Bad_size Hu), negb_true_iff, <- not_true_iff_false, Nat.ltb_lt. unfold data. rewrite data_iff. reflexivity.
  Qed.
  Lemma filters_counter s t t' b f : usable findalls s -> filters is_digit findalls lang s t = Some (t', b) ->
    counter f t' = counter f t + Nat.b2n (first_faultb s f) + match f with Bad_lines => Nat.b2n (longb s) | _ => 0 end.
  Proof.
    intros (Hne & Hl & _ & _ & Ho). unfold filters, first_faultb, longb. fold data. destruct (@suspicious_spec findalls (content s) Hne Hl Ho) as (b' & Es & _). unfold passesb. rewrite Es.
    generalize ((size s <? 16) || (mb 1 / 4 <? size s))%Z (256 <? count_occ N.eq_dec (content s) 0x0A%N) (4096 <? count_occ N.eq_dec (content s) 0x0A%N)
      (fltb (f64_of_Z 100) (avg_line_length s) || fltb (avg_line_length s) (f64_of_Z 10) || (1000 <? max_line_length s)%Z) (fltb (alphanum_fraction s) (literal 1 4))
      (fltb (fmul (literal 3 10) (f64_of_nat (length (content s)))) (f64_of_nat (length (filter is_digit (content s))))) (has_many_non_chinese_non_ascii (content s) (literal 1 5)) data.
    intros b1 b2 b3 b4 b5 b6 b7 d. clear. destruct b1, d, b2, b3, b4, b5, b6, b', b7; cbn [negb andb]; intros H; injection H as <- <-; destruct f; cbn; lia.
  Qed.
  Lemma loop_counter train test f : forall samples, Forall (usable findalls) samples -> forall written t n r, stack_loop is_digit findalls lang train test written t n samples = Some r ->
    exists seen rest, samples = seen ++ rest /\ visited r = n + length seen /\
      counter f (final_stats r) = counter f t + length (filter (fun s => first_faultb s f) seen) + match f with Bad_lines => length (filter longb seen) | _ => 0 end.
  Proof.
    induction samples as [|s samples IH]; intros HF written t n r H.
    - cbn in H. injection H as <-. exists [], []. cbn. splits; auto; destruct f; lia.
    - inversion HF as [|? ? Hs HF']; subst. specialize (IH HF'). cbn [stack_loop] in H. destruct (filters is_digit findalls lang s t) as [[t' b]|] eqn:E; [|discriminate].
      assert (Hc := filters_counter t f Hs E).
      assert (Hadd : forall seen, length (filter (fun s => first_faultb s f) (s :: seen)) = Nat.b2n (first_faultb s f) + length (filter (fun s => first_faultb s f) seen)) by (intros seen; cbn [filter]; destruct (first_faultb s f); reflexivity).
      assert (Hadd2 : forall seen, length (filter longb (s :: seen)) = Nat.b2n (longb s) + length (filter longb seen)) by (intros seen; cbn [filter]; destruct (longb s); reflexivity).
      assert (Hgo : forall w r', stack_loop is_digit findalls lang train test w t' (S n) samples = Some r' -> exists seen rest, s :: samples = seen ++ rest /\ visited r' = n + length seen /\
        counter f (final_stats r') = counter f t + length (filter (fun s => first_faultb s f) seen) + match f with Bad_lines => length (filter longb seen) | _ => 0 end).
      { intros w r' E2. apply IH in E2 as (seen & rest & -> & Hv & Hct). exists (s :: seen), rest. splits; [reflexivity|cbn; lia|]. rewrite Hadd, Hadd2, Hct, Hc. destruct f; lia. }
      destruct b; [|exact (Hgo _ _ H)]. destruct (written <? test)%Z; [|destruct (written <? test + train)%Z].
      + destruct (stack_loop _ _ _ _ _ _ t' _ samples) as [r'|] eqn:E2; [|discriminate]. cbn [option_map] in H. injection H as <-. exact (Hgo _ _ E2).
      + destruct (stack_loop _ _ _ _ _ _ t' _ samples) as [r'|] eqn:E2; [|discriminate]. cbn [option_map] in H. injection H as <-. exact (Hgo _ _ E2).
      + injection H as <-. exists [s], samples. splits; [reflexivity|cbn; lia|]. cbn [final_stats]. rewrite Hadd, Hadd2, Hc. cbn [filter length]. destruct f; lia.
  Qed.
End Counters.
Theorem C76_each_count : forall is_digit findalls lang train test samples r, Forall (usable findalls) samples ->
  generate_the_stack is_digit findalls lang train test samples = Some r ->
  forall f, exists faulty longs, Sifted (first_fault is_digit findalls lang f) (firstn (visited r) samples) faulty /\ Sifted (long lang) (firstn (visited r) samples) longs /\
    counter f (final_stats r) = length faulty + match f with Bad_lines => length longs | _ => 0 end.
Proof.
  intros is_digit findalls lang train test samples r HF H f. unfold generate_the_stack in H. destruct (@loop_counter is_digit findalls lang train test f samples HF _ _ _ _ H) as (seen & rest & -> & Hv & Hc).
  cbn [plus] in Hv. rewrite Hv, firstn_app, Nat.sub_diag, firstn_all, firstn_O, app_nil_r. apply Forall_app in HF as [HF _]. rewrite Forall_forall in HF.
  exists (filter (fun s => first_faultb is_digit findalls lang s f) seen), (filter (longb is_digit findalls lang) seen). splits.
  - apply Sifted_filter. intros s Hs. apply first_faultb_iff. now apply HF.
  - apply Sifted_filter. intros s Hs. apply longb_iff. now apply HF.
  - rewrite Hc. destruct f; reflexivity.
Qed.
Print Assumptions C76_each_count.
(** That samples with more than 4096 lines are dropped is false, and so is that the numbers at the end count what was dropped. *)
Definition long_text : list N := List.concat (repeat ([0x61; 0x61; 0x61; 0x61; 0x20; 0x61; 0x61; 0x61; 0x61; 0x61; 0x0A]%N) 4097).
Definition long_sample : stack_sample := StackSample long_text 45067 (f64_of_Z 10) 10 (literal 9 11).
Definition no_matches : list (list N -> list (list N)) := [fun _ => []; fun _ => []; fun _ => []].
Definition ascii_digit (c : N) : bool := in_block 0x30 0x39 c.
Lemma long_text_length : length long_text = 4097 * 11.
Proof. unfold long_text. assert (H : forall n, length (List.concat (repeat ([0x61; 0x61; 0x61; 0x61; 0x20; 0x61; 0x61; 0x61; 0x61; 0x61; 0x0A]%N) n)) = n * 11) by (induction n; [reflexivity|]; cbn [repeat List.concat]; rewrite app_length, IHn; simpl; lia). apply H. Qed.
Lemma long_text_lines : line_ends long_text = 4097.
Proof. unfold long_text, line_ends. generalize 4097. induction n; [reflexivity|]. cbn [repeat List.concat]. rewrite count_occ_app, IHn. reflexivity. Qed.
Lemma long_text_chars c : In c long_text -> c = 0x61%N \/ c = 0x20%N \/ c = 0x0A%N.
Proof. intros H. apply in_concat in H as (l & Hl & Hc). apply repeat_spec in Hl. subst l. simpl in Hc. intuition auto. Qed.
Lemma none_sifted {A} (P : A -> Prop) l : (forall a, In a l -> ~ P a) -> Sifted P l [].
Proof. induction l as [|a l IH]; intros H; [constructor|]. apply Sifted_out; [apply H; now left|]. apply IH. intros b Hb. apply H. now right. Qed.
Lemma long_sample_usable : usable no_matches long_sample.
Proof.
  unfold usable, long_sample. cbn [content avg_line_length alphanum_fraction]. rewrite long_text_length. splits; try reflexivity; [|lia|].
  - intros E. assert (H := long_text_length). rewrite E in H. discriminate.
  - repeat (apply Forall_cons || apply Forall_nil); cbn [List.concat]; apply Nat.le_0_l.
Qed.
Lemma long_sample_kept : kept ascii_digit no_matches "rust" long_sample.
Proof.
  unfold kept, worth_keeping, long_sample. cbn [content size avg_line_length max_line_length alphanum_fraction]. splits; try lia.
  - intros H. unfold is_data in H. simpl in H. exfalso. intuition discriminate.
  - destruct (of_Z_exact 10 ltac:(lia)) as [_ ->]. lra.
  - destruct (of_Z_exact 10 ltac:(lia)) as [_ ->]. lra.
  - assert (E : B2SF (literal 9 11) = SpecFloat.S754_finite false 7369526662969903 (-53)) by (vm_compute; reflexivity). rewrite <- SF2R_B2SF, E. unfold SF2R, Defs.F2R. simpl. lra.
  - exists []. split; [|rewrite Nat.mul_0_r; apply Nat.le_0_l]. apply none_sifted. intros c Hc. apply long_text_chars in Hc as [-> |[-> | ->]]; discriminate.
  - repeat (apply Forall_cons || apply Forall_nil); (split; [constructor|cbn [List.concat]; apply Nat.le_0_l]).
  - exists []. split; [|rewrite Nat.mul_0_r; apply Nat.le_0_l]. apply none_sifted. intros c Hc (H & _). apply long_text_chars in Hc as [-> |[-> | ->]]; lia.
Qed.
Lemma long_written s : usable no_matches s -> kept ascii_digit no_matches "rust" s -> long "rust" s ->
  exists r, generate_the_stack ascii_digit no_matches "rust" 0 1 [s] = Some r /\ test_file r = encode_string (content s) ++ [x00] /\ total (final_stats r) = 1 /\ visited r = 1.
Proof.
  intros Hu Hk Hl. assert (HF : Forall (usable no_matches) [s]) by (apply Forall_cons; [exact Hu|apply Forall_nil]).
  destruct (@loop_spec ascii_digit no_matches "rust" 0 1 _ HF 0 no_stats 0) as (r & seen & rest & good & all & longs & H1 & H2 & H3 & H4 & H5 & H6 & H7 & H8 & H9 & H10).
  exists r. assert (Ea : all = [s]).
  { apply (Sifted_fun H5). apply Sifted_in; [exact Hk|apply Sifted_nil]. }
  rewrite Ea in H8. cbn [map write_samples] in H8. change (0 <? 1)%Z with true in H8. cbn [option_map fst snd] in H8. change (existsb (fun k => beqs k "test") both_splits) with true in H8. cbv iota in H8. injection H8 as H8 _.
  assert (Hse : seen = [s] /\ rest = []).
  { destruct seen as [|x seen]; [|injection H2 as <- H2; destruct seen; [|discriminate]; destruct rest; [split; reflexivity|discriminate]]. simpl in H2. subst rest. exfalso.
    assert (Hn : visited r = 0) by (simpl in H3; lia). unfold generate_the_stack in H1. destruct (H10 ltac:(discriminate)) as [H11 _].
    inversion H6; subst. inversion H4; subst. cbn [stack_loop] in H1. destruct (@filters_spec ascii_digit no_matches "rust" s no_stats Hu) as (t' & b & E & Hb & _). rewrite E in H1.
    rewrite (proj2 Hb Hk) in H1. change (0 <? 1)%Z with true in H1. cbv iota in H1. cbn [stack_loop option_map] in H1. injection H1 as <-. discriminate Hn. }
  destruct Hse as [-> ->].
  assert (Hlg : longs = [s]) by (apply (Sifted_fun H6); apply Sifted_in; [exact Hl|apply Sifted_nil]).
  assert (Hg : good = [s]) by (apply (Sifted_fun H4); apply Sifted_in; [exact Hk|apply Sifted_nil]). subst longs good.
  splits; auto; [change (total (final_stats r) + 1 = 0 + 1 + 1) in H7; lia].
Qed.
Lemma rust_no_data : ~ is_data "rust".
Proof. unfold is_data. simpl. intuition discriminate. Qed.
Lemma long_sample_long : long "rust" long_sample.
Proof. unfold long, long_sample. cbn [size content]. rewrite long_text_lines. splits; [lia|lia|exact rust_no_data|lia]. Qed.
Theorem C76_long_dropped_refuted : exists is_digit findalls lang s r, ~ is_data lang /\ 4096 < line_ends (content s) /\ usable findalls s /\
  generate_the_stack is_digit findalls lang 0 1 [s] = Some r /\ test_file r = encode_string (content s) ++ [x00] /\ total (final_stats r) = 1 /\ visited r = 1.
Proof.
  destruct (long_written long_sample_usable long_sample_kept long_sample_long) as (r & H). exists ascii_digit, no_matches, "rust"%string, long_sample, r.
  split; [exact rust_no_data|]. split; [apply long_sample_long|]. split; [exact long_sample_usable|exact H].
Qed.
Print Assumptions C76_long_dropped_refuted.
(** A number that is not one is never too small or too large: the sample is judged by the rest. *)
Theorem C76_nan : forall is_digit findalls lang text size max_line_length alphanum_fraction t,
  filters is_digit findalls lang (StackSample text size fnan max_line_length alphanum_fraction) t = filters is_digit findalls lang (StackSample text size (f64_of_Z 50) max_line_length alphanum_fraction) t.
Proof. intros. unfold filters. cbn [content Datagen.size avg_line_length Datagen.max_line_length Datagen.alphanum_fraction]. replace (fltb (f64_of_Z 100) fnan) with false by reflexivity. replace (fltb fnan (f64_of_Z 10)) with false by reflexivity.
  replace (fltb (f64_of_Z 100) (f64_of_Z 50)) with false by reflexivity. replace (fltb (f64_of_Z 50) (f64_of_Z 10)) with false by reflexivity. reflexivity.
Qed.
(** An empty text that gets to the expressions ends the program. *)
Theorem C76_empty : forall is_digit findall findalls lang size avg_line_length max_line_length alphanum_fraction t, (16 <= size <= 262144)%Z ->
  is_finite avg_line_length = true -> (10 <= B2R avg_line_length <= 100)%R -> (max_line_length <= 1000)%Z -> is_finite alphanum_fraction = true -> (1 / 4 <= B2R alphanum_fraction)%R ->
  Forall (fun m => length m <= 256) (findall []) ->
  filters is_digit (findall :: findalls) lang (StackSample [] size avg_line_length max_line_length alphanum_fraction) t = None.
Proof.
  intros is_digit findall findalls lang size avg mx al t Hs Fa Ha Hm Ff Hal HF. unfold filters. cbn [content Datagen.size avg_line_length Datagen.max_line_length Datagen.alphanum_fraction Datagen.avg_line_length count_occ].
  destruct ints as ((F1 & E1) & (F2 & E2) & (F3 & E3)).
  change (mb 1 / 4)%Z with 262144%Z. replace (size <? 16)%Z with false by (symmetry; apply Z.ltb_ge; lia). replace (262144 <? size)%Z with false by (symmetry; apply Z.ltb_ge; lia). cbn [orb]. replace (256 <? 0) with false by reflexivity. rewrite andb_false_r.
  replace (fltb (f64_of_Z 100) avg) with false by (symmetry; apply not_true_iff_false; rewrite (lt_iff _ _ F1 Fa), E1; lra).
  replace (fltb avg (f64_of_Z 10)) with false by (symmetry; apply not_true_iff_false; rewrite (lt_iff _ _ Fa F2), E2; lra).
  replace (1000 <? mx)%Z with false by (symmetry; apply Z.ltb_ge; lia). cbn [orb].
  replace (fltb al (literal 1 4)) with false by (symmetry; apply not_true_iff_false; rewrite (lt_iff _ _ Ff F3), E3; lra).
  cbn [filter length]. replace (fltb (fmul (literal 3 10) (f64_of_nat 0)) (f64_of_nat 0)) with false by (vm_compute; reflexivity). cbn [suspicious length].
  replace (existsb (fun m => 256 <? length m) (findall [])) with false; [reflexivity|]. symmetry. apply not_true_iff_false. intros H. apply existsb_exists in H as (m & Hin & Hlt). apply Nat.ltb_lt in Hlt. rewrite Forall_forall in HF. apply HF in Hin. lia.
Qed.
Print Assumptions C76_empty.
Example C76_example : let s := StackSample (repeat 0x61%N 20 ++ [0x0A; 0xE9; 0xE9; 0xE9; 0x4E2D]%N) 29 (f64_of_Z 10) 10 (literal 9 11) in
  usable no_matches s /\ filters ascii_digit no_matches "json" s no_stats = Some (no_stats, true) /\
  filters ascii_digit no_matches "json" (StackSample (repeat 0x31%N 8 ++ content s) 37 (f64_of_Z 10) 10 (literal 9 11)) no_stats = Some (no_stats, true) /\
  filters ascii_digit no_matches "json" (StackSample (repeat 0x31%N 11 ++ content s) 40 (f64_of_Z 10) 10 (literal 9 11)) no_stats = Some (count_number no_stats, false) /\
  filters ascii_digit no_matches "json" (StackSample (repeat 0xE9%N 4 ++ content s) 37 (f64_of_Z 10) 10 (literal 9 11)) no_stats = Some (count_unicode no_stats, false).
Proof.
  cbv zeta. splits; try (vm_compute; reflexivity). unfold usable. cbn [content avg_line_length alphanum_fraction]. splits; try reflexivity; try discriminate.
  repeat (apply Forall_cons || apply Forall_nil); simpl; lia.
Qed.
