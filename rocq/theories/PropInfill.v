(** C77: the infilling of datagen.py. *)
From Coq Require Import Permutation.
From Coq.Strings Require Import String.
From Verif Require Import Base BaseProofs F64 Utf8 SpecUtf8 Utf8Proofs Processor SpecJson Serde Regex RegexJoin Cli SpecCli CountProofs CliProofs PropCli Scripts SpecScripts PropScripts
  GenerateProofs Datagen SpecDatagen.
Set Implicit Arguments.
Local Open Scope list_scope.
Local Open Scope nat_scope.
Local Notation length := List.length.
Local Ltac splits := repeat match goal with |- _ /\ _ => split end.

(** ** Cutting *)
Lemma chunks_cut k : 0 < k -> forall fuel s, length s <= fuel -> Cut k s (chunks fuel k s).
Proof.
  intros Hk. induction fuel as [|fuel IH]; intros s Hs; [destruct s; [constructor|simpl in Hs; lia]|]. cbn [chunks]. destruct s as [|c s]; [constructor|]. set (t := c :: s) in *. assert (Hne : t <> []) by discriminate. clearbody t.
  destruct (Nat.le_gt_cases (length t) k) as [Hle|Hgt].
  - rewrite firstn_all2, skipn_all2 by exact Hle. destruct fuel; cbn [chunks]; (apply Cut_last; [exact Hne|exact Hle]).
  - assert (Hn : skipn k t <> []) by (intros E; apply (f_equal (@length N)) in E; rewrite skipn_length in E; simpl in E; lia).
    rewrite <- (firstn_skipn k t) at 1. apply Cut_more; [rewrite firstn_length; lia|exact Hn|]. apply IH. rewrite skipn_length. lia.
Qed.
Lemma cut_concat {A} k (s : list A) l : Cut k s l -> List.concat l = s.
Proof. induction 1 as [|s Hs Hl|a s l Ha Hs H IH]; simpl; [reflexivity|apply app_nil_r|now rewrite IH]. Qed.
Lemma cut_lengths {A} k (s : list A) l : Cut k s l -> Forall (fun p => length p <= k) l.
Proof. induction 1 as [|s Hs Hl|a s l Ha Hs H IH]; repeat constructor; auto. lia. Qed.
Lemma cut_count {A} k (s : list A) l : Cut k s l -> s <> [] -> 0 < length l /\ (length l - 1) * k < length s <= length l * k.
Proof.
  induction 1 as [|s Hs Hl|a s l Ha Hs H IH]; intros Hne; [congruence| |].
  - simpl. destruct s; [congruence|]. simpl in *. lia.
  - specialize (IH Hs). rewrite app_length. cbn [length]. replace (S (length l) - 1) with (length l) by lia. nia.
Qed.
Lemma chunk_size_piece n : piece_size n (chunk_size n).
Proof.
  unfold piece_size, chunk_size. assert (Hdm := Nat.div_mod n 10 ltac:(lia)). assert (Hm := Nat.mod_upper_bound n 10 ltac:(lia)).
  destruct (Nat.lt_ge_cases n 320); [left; lia|right]. destruct (Nat.lt_ge_cases n 1280); [left; lia|right; lia].
Qed.
Lemma chunk_size_bounds n : 32 <= chunk_size n <= 128.
Proof. unfold chunk_size. lia. Qed.
(** A sample has ten pieces exactly if it has 289 characters. *)
Lemma ten_pieces (s : list N) l : Cut (chunk_size (length s)) s l -> length l < 10 <-> length s < 289.
Proof.
  intros H. destruct s as [|c s]; [assert (l = []) as -> by (inversion H; [reflexivity|congruence|]; destruct a; [|discriminate]; simpl in *; congruence); simpl; lia|]. set (t := c :: s) in *.
  destruct (cut_count H ltac:(discriminate)) as (H1 & H2 & H3). assert (Hp := chunk_size_piece (length t)). assert (Hb := chunk_size_bounds (length t)). set (k := chunk_size (length t)) in *. clearbody k.
  assert (Hdm := Nat.div_mod (length t) 10 ltac:(lia)). split; intros Hl.
  - destruct Hp as [[Hp ->]|[[Hp Ek]|[Hp ->]]]; nia.
  - destruct Hp as [[Hp ->]|[[Hp Ek]|[Hp ->]]]; nia.
Qed.

Section Rand.
  Variable rand : nat -> nat -> nat.
  (** [randrange] gives a number of the range. *)
  Hypothesis Hrand : forall i n, 0 < n -> rand i n < n.

  Lemma draw_ok {A} i (l : list A) : l <> [] -> exists a r, draw rand i l = Ok (a, r) /\ Permutation l (a :: r).
  Proof.
    intros Hl. unfold draw. destruct (Nat.eqb_spec (length l) 0) as [E|E]; [destruct l; [congruence|discriminate]|]. unfold pop.
    destruct (nth_error l (rand i (length l))) as [a|] eqn:En; [|apply nth_error_None in En; assert (H := Hrand i (n := length l) ltac:(lia)); lia].
    exists a, (firstn (rand i (length l)) l ++ skipn (S (rand i (length l))) l). split; [reflexivity|]. apply nth_error_split in En as (l1 & l2 & E1 & E2). rewrite E1 at 1. rewrite <- E2, E1.
    rewrite firstn_app, firstn_all, Nat.sub_diag. rewrite skipn_app, skipn_all2 by lia. replace (S (length l1) - length l1) with 1 by lia. cbn [firstn skipn app]. rewrite app_nil_r. apply Permutation_sym, Permutation_middle.
  Qed.
  Lemma draw_nil {A} i : draw rand i (@nil A) = Panic.
  Proof. reflexivity. Qed.
  Lemma mix_ok times : forall i cs text, times < length cs -> exists drawn rest joined, mix rand times i cs text = Ok (text ++ joined, i + S times) /\
    Permutation cs (drawn ++ rest) /\ length drawn = S times /\ Joined drawn joined.
  Proof.
    induction times as [|times IH]; intros i cs text Hl; cbn [mix]; (assert (Hne : cs <> []) by (intros ->; simpl in Hl; lia)); destruct (draw_ok i Hne) as (c & r & -> & HP); cbn [bind].
    - exists [c], r, c. splits; [now rewrite Nat.add_1_r|exact HP|reflexivity|constructor].
    - assert (Hr : times < length r) by (apply Permutation_length in HP; simpl in HP; lia). destruct (IH (S i) r (text ++ c ++ [0x7F%N]) Hr) as (drawn & rest & joined & E & HP2 & Hd & HJ).
      exists (c :: drawn), rest, (c ++ 0x7F%N :: joined). splits.
      + rewrite E. rewrite <- !app_assoc. cbn [app]. replace (S i + S times) with (i + S (S times)) by lia. reflexivity.
      + rewrite HP. cbn [app]. now rewrite HP2.
      + simpl. lia.
      + constructor; [destruct drawn; [discriminate|discriminate]|exact HJ].
  Qed.
  Lemma add_ok times : forall i pool text, times <= length pool -> exists samples added left i', add_samples rand times i pool text = Ok (text ++ List.concat added, left, i') /\
    Permutation pool (samples ++ left) /\ length samples = times /\ Forall2 Adds samples added.
  Proof.
    induction times as [|times IH]; intros i pool text Hl; cbn [add_samples].
    - exists [], [], pool, i. cbn. rewrite app_nil_r. splits; auto.
    - assert (Hne : pool <> []) by (intros ->; simpl in Hl; lia). destruct (draw_ok i Hne) as (s & r & -> & HP). cbn [bind]. assert (Hr : times <= length r) by (apply Permutation_length in HP; simpl in HP; lia).
      assert (HC : Cut (chunk_size (length s)) s (chunks (length s) (chunk_size (length s)) s)) by (apply chunks_cut; [assert (H := chunk_size_bounds (length s)); lia|lia]).
      set (cs := chunks (length s) (chunk_size (length s)) s) in *. assert (Hten := ten_pieces HC). destruct (Nat.ltb_spec (length cs) 10) as [Hlt|Hge].
      + destruct (IH (S i) r text Hr) as (samples & added & left & i' & E & HP2 & Hn & HF). exists (s :: samples), ([] :: added), left, i'. splits; auto.
        * rewrite HP. cbn [app]. now rewrite HP2.
        * simpl. lia.
        * constructor; [|exact HF]. left. split; [now apply Hten|reflexivity].
      + destruct (@mix_ok 9 (S i) cs text ltac:(lia)) as (drawn & rest & joined & -> & HP2 & Hd & HJ). cbn [bind].
        destruct (IH (S i + 10) r (text ++ joined) Hr) as (samples & added & left & i' & E & HP3 & Hn & HF). exists (s :: samples), (joined :: added), left, i'. splits.
        * rewrite E. cbn [List.concat]. now rewrite app_assoc.
        * rewrite HP. cbn [app]. now rewrite HP3.
        * simpl. lia.
        * constructor; [|exact HF]. right. split; [apply Nat.nlt_ge; rewrite <- Hten; lia|]. exists (chunk_size (length s)), cs, drawn, rest. splits; auto. apply chunk_size_piece.
  Qed.
  Lemma add_fails times : forall i pool text, length pool < times -> add_samples rand times i pool text = Panic.
  Proof.
    induction times as [|times IH]; intros i pool text Hl; [lia|]. cbn [add_samples]. destruct pool as [|x pool]; [reflexivity|]. destruct (@draw_ok _ i (x :: pool) ltac:(discriminate)) as (s & r & -> & HP). cbn [bind].
    assert (Hr : length r < times) by (apply Permutation_length in HP; simpl in HP, Hl; lia).
    set (cs := chunks (length s) (chunk_size (length s)) s). destruct (Nat.ltb_spec (length cs) 10) as [Hlt|Hge]; [now apply IH|].
    destruct (@mix_ok 9 (S i) cs text ltac:(lia)) as (drawn & rest & joined & -> & _). cbn [bind]. now apply IH.
  Qed.

  (** What a run does: it has an outcome; if that is not a failure, the texts are as follows. *)
  Definition encoded (texts : list (list N)) : list bytes := map encode_string texts.
  Lemma loop_ok train test : (0 <= train)%Z -> forall fuel written i pool, length pool < 4 * fuel ->
    (exists groups texts g t left a b, infill_loop rand fuel train test written i pool = Ok (a, b) /\ Permutation pool (List.concat groups ++ g ++ left) /\ Forall2 Infills groups texts /\ Infills g t /\
       (test + train - written <= stored_bytes (encoded texts))%Z /\ (forall j, j < length texts -> (stored_bytes (firstn j (encoded texts)) < test + train - written)%Z) /\
       write_samples both_splits train test written (encoded texts) = Some (a, b)) \/
    (exists groups texts left, infill_loop rand fuel train test written i pool = Panic /\ Permutation pool (List.concat groups ++ left) /\ Forall2 Infills groups texts /\ length left < 4 /\
       (forall j, j < length texts -> (stored_bytes (firstn j (encoded texts)) < test + train - written)%Z)).
  Proof.
    intros Ht. induction fuel as [|fuel IH]; intros written i pool Hl; [lia|]. cbn [infill_loop]. destruct (Nat.lt_ge_cases (length pool) 4) as [H4|H4].
    - rewrite (@add_fails 4 i pool [] H4). cbn [bind]. right. exists [], [], pool. splits; auto. intros j Hj. simpl in Hj. lia.
    - destruct (@add_ok 4 i pool [] H4) as (g & added & left & i' & -> & HP & Hg & HF). cbn [bind app]. set (t := List.concat added). set (e := encode_string t). cbv zeta.
      assert (HI : Infills g t) by (split; [exact Hg|exists added; split; [exact HF|reflexivity]]).
      assert (Hlen := Permutation_length HP). rewrite app_length, Hg in Hlen.
      assert (Hgo : (written < test + train)%Z ->
        (exists groups texts g' t' left' a b, infill_loop rand fuel train test (written + Z.of_nat (length e) + 1) i' left = Ok (a, b) /\ Permutation pool (List.concat groups ++ g' ++ left') /\ Forall2 Infills groups (t :: texts) /\ Infills g' t' /\
          (test + train - written <= stored_bytes (encoded (t :: texts)))%Z /\ (forall j, j < S (length texts) -> (stored_bytes (firstn j (encoded (t :: texts))) < test + train - written)%Z) /\
          write_samples both_splits train test (written + Z.of_nat (length e) + 1) (encoded texts) = Some (a, b)) \/
        (exists groups texts left', infill_loop rand fuel train test (written + Z.of_nat (length e) + 1) i' left = Panic /\ Permutation pool (List.concat groups ++ left') /\ Forall2 Infills groups texts /\ length left' < 4 /\
          (forall j, j < length texts -> (stored_bytes (firstn j (encoded texts)) < test + train - written)%Z))).
      { intros Hw. destruct (IH (written + Z.of_nat (length e) + 1)%Z i' left ltac:(lia)) as [(groups & texts & g' & t' & left' & a & b & E & HP2 & HF2 & HI2 & Hq & Hj & Ew)|(groups & texts & left' & E & HP2 & HF2 & Hl2 & Hj)].
        - left. exists (g :: groups), texts, g', t', left', a, b. splits; auto.
          + rewrite HP. cbn [List.concat]. rewrite <- app_assoc. now rewrite HP2.
          + cbn [encoded map]. rewrite stored_bytes_cons. fold (encoded texts). fold e. lia.
          + intros [|j] Hlt; [cbn; lia|]. cbn [encoded map firstn]. rewrite stored_bytes_cons. fold (encoded texts). fold e. specialize (Hj j ltac:(lia)). lia.
        - right. exists (g :: groups), (t :: texts), left'. splits; auto.
          + rewrite HP. cbn [List.concat]. rewrite <- app_assoc. now rewrite HP2.
          + intros [|j] Hlt; [cbn; lia|]. cbn [encoded map firstn]. rewrite stored_bytes_cons. fold (encoded texts). fold e. specialize (Hj j ltac:(simpl in Hlt; lia)). lia. }
      destruct (Z.ltb_spec written test) as [Hw|Hw]; [|destruct (Z.ltb_spec written (test + train)) as [Hw2|Hw2]].
      + destruct (Hgo ltac:(lia)) as [(groups & texts & g' & t' & left' & a & b & -> & HP2 & HF2 & HI2 & Hq & Hj & Ew)|(groups & texts & left' & -> & H)].
        * left. exists groups, (t :: texts), g', t', left', (e ++ x00 :: a), b. cbn [bind]. splits; auto. cbn [encoded map write_samples]. fold (encoded texts). fold e. rewrite Ew, (proj2 (Z.ltb_lt _ _) Hw). reflexivity.
        * right. exists groups, texts, left'. cbn [bind]. auto.
      + destruct (Hgo ltac:(lia)) as [(groups & texts & g' & t' & left' & a & b & -> & HP2 & HF2 & HI2 & Hq & Hj & Ew)|(groups & texts & left' & -> & H)].
        * left. exists groups, (t :: texts), g', t', left', a, (e ++ x00 :: b). cbn [bind]. splits; auto. cbn [encoded map write_samples]. fold (encoded texts). fold e. rewrite Ew, (proj2 (Z.ltb_ge _ _) Hw), (proj2 (Z.ltb_lt _ _) Hw2). reflexivity.
        * right. exists groups, texts, left'. cbn [bind]. auto.
      + left. exists [], [], g, t, left, [], []. splits; auto; [cbn; lia|]. intros j Hj. simpl in Hj. lia.
  Qed.
End Rand.

(** ** The samples *)
Lemma split_text_spec s l : split_text s = l <-> Split s l.
Proof.
  assert (H : forall s, Split s (split_text s)).
  { clear. induction s as [|c s IH]; cbn [split_text]; [apply Split_last; intros []|]. destruct (N.eqb_spec c 0) as [-> |Hc].
    - apply (@Split_more [] s (split_text s)); [intros []|exact IH].
    - destruct IH as [p Hp|p s' l Hp Hs].
      + apply Split_last. intros [H|H]; [congruence|contradiction].
      + apply (@Split_more (c :: p) s' l); [intros [H|H]; [congruence|contradiction]|exact Hs]. }
  split; [intros <-; apply H|]. intros Hl. specialize (H s). revert l Hl. induction H as [p Hp|p s l Hp H IH]; intros l' Hl; inversion Hl as [q Hq E1|q s' l2 Hq Hs E1 E2]; subst.
  - reflexivity.
  - exfalso. apply Hp. apply in_or_app. right. now left.
  - exfalso. apply Hq. apply in_or_app. right. now left.
  - assert (E : p = q /\ s = s').
    { clear -Hp Hq E1. revert q E1 Hq. induction p as [|c p IH]; intros [|d q] E Hq; simpl in E.
      - now injection E as ->.
      - injection E as E _. exfalso. apply Hq. left. congruence.
      - injection E as E _. exfalso. apply Hp. left. congruence.
      - injection E as -> E. destruct (IH (fun H => Hp (or_intror H)) q E (fun H => Hq (or_intror H))) as [-> ->]. auto. }
    destruct E as [-> ->]. f_equal. now apply IH.
Qed.
Theorem C77_pool : forall files pool, infilling_pool files = pool <-> Pool files pool.
Proof.
  intros files pool. unfold infilling_pool, Pool. split.
  - intros <-. exists (map split_text files). split; [|now rewrite flat_map_concat_map, flat_map_concat_map, map_map]. induction files as [|f files IH]; constructor; [now apply split_text_spec|exact IH].
  - intros (parts & HF & ->). induction HF as [|f l files parts Hf HF IH]; [reflexivity|]. cbn [flat_map]. rewrite IH. apply split_text_spec in Hf. now rewrite Hf.
Qed.
Print Assumptions C77_pool.

(** ** C77: the files are made of infilling texts, every one of four samples that no other text uses; the texts are the fewest that fill the
    quotas. (The samples of one more text, [g], are used up although it is not written.) *)
Theorem C77_infilling : forall rand train test files fuel a b, (forall i n, 0 < n -> rand i n < n) -> (0 <= train)%Z -> length (infilling_pool files) < 4 * fuel ->
  generate_infilling rand fuel train test files = Ok (a, b) ->
  exists groups texts g t left k, Permutation (infilling_pool files) (List.concat groups ++ g ++ left) /\ Forall2 Infills groups texts /\ Infills g t /\
    let written := map encode_string texts in
    (test + train <= stored_bytes written)%Z /\ fewest (test + train) written (length written) /\ fewest test written k /\
    a = stored (firstn k written) /\ b = stored (skipn k written).
Proof.
  intros rand train test files fuel a b Hr Ht Hf H. destruct (@loop_ok rand Hr train test Ht fuel 0 0 (infilling_pool files) Hf) as [(groups & texts & g & t & left & a' & b' & E & HP & HF & HI & Hq & Hj & Ew)|(groups & texts & left & E & _)];
    unfold generate_infilling in H; rewrite E in H; [|discriminate]. injection H as <- <-. rewrite !Z.sub_0_r in *.
  destruct (@write_samples_spec train test (encoded texts) Ht 0) as (k & m & Hk & Hm & Hle & E2). rewrite !Z.sub_0_r in *. rewrite Ew in E2. injection E2 as -> ->.
  exists groups, texts, g, t, left, k. fold (encoded texts) in *. cbv zeta. assert (Hlen : length (encoded texts) = length texts) by apply map_length.
  assert (HL : fewest (test + train) (encoded texts) (length (encoded texts))) by (split; [lia|]; split; [lia|]; intros j Hlt; apply Hj; lia).
  assert (Em : firstn m (encoded texts) = encoded texts).
  { destruct Hm as (H1 & H2 & H3). destruct (Nat.eq_dec m (length (encoded texts))) as [-> |Hne]; [apply firstn_all|]. specialize (H2 ltac:(lia)). specialize (Hj m ltac:(lia)). lia. }
  rewrite Em. splits; auto.
Qed.
Print Assumptions C77_infilling.
(** It ends, with files or with an exception; it fails if there are less than four samples, even if nothing is wanted. *)
Theorem C77_ends : forall rand train test files fuel, (forall i n, 0 < n -> rand i n < n) -> (0 <= train)%Z -> length (infilling_pool files) < 4 * fuel ->
  (exists a b, generate_infilling rand fuel train test files = Ok (a, b)) \/ generate_infilling rand fuel train test files = Panic.
Proof.
  intros rand train test files fuel Hr Ht Hf. destruct (@loop_ok rand Hr train test Ht fuel 0 0 (infilling_pool files) Hf) as [(groups & texts & g & t & rem & a & b & E & _)|(groups & texts & rem & E & _)]; [left; exists a, b; exact E|right; exact E].
Qed.
Theorem C77_few : forall rand train test files fuel, (forall i n, 0 < n -> rand i n < n) -> length (infilling_pool files) < 4 -> 0 < fuel -> generate_infilling rand fuel train test files = Panic.
Proof. intros rand train test files [|fuel] Hr Hl Hf; [lia|]. unfold generate_infilling. cbn [infill_loop]. rewrite (@add_fails rand Hr 4 0 _ [] Hl). reflexivity. Qed.

Lemma groups_length groups texts : Forall2 Infills groups texts -> length (List.concat groups) = 4 * length texts.
Proof. induction 1 as [|g t groups texts [Hg _] HF IH]; [reflexivity|]. cbn [List.concat length]. rewrite app_length, IH, Hg. lia. Qed.
Lemma stored_at_least samples : (Z.of_nat (length samples) <= stored_bytes samples)%Z.
Proof. induction samples as [|s samples IH]; [cbn; lia|]. rewrite stored_bytes_cons. cbn [length]. lia. Qed.
(** Samples enough: four for every byte, and four. *)
Theorem C77_enough : forall rand train test files fuel, (forall i n, 0 < n -> rand i n < n) -> (0 <= train)%Z -> length (infilling_pool files) < 4 * fuel ->
  (4 * (Z.max 0 (test + train) + 1) <= Z.of_nat (length (infilling_pool files)))%Z -> exists a b, generate_infilling rand fuel train test files = Ok (a, b).
Proof.
  intros rand train test files fuel Hr Ht Hf Hn. destruct (@loop_ok rand Hr train test Ht fuel 0 0 (infilling_pool files) Hf) as [(groups & texts & g & t & left & a & b & E & _)|(groups & texts & left & E & HP & HF & Hl & Hj)]; [exists a, b; exact E|exfalso].
  apply Permutation_length in HP. rewrite app_length, (groups_length HF) in HP. destruct (length texts) as [|m] eqn:Em; [lia|]. specialize (Hj m ltac:(lia)).
  assert (Hs := stored_at_least (firstn m (encoded texts))). unfold encoded in Hs at 1. rewrite firstn_length, map_length, Em in Hs. lia.
Qed.
Print Assumptions C77_enough.
(** A text has at most 20516 bytes. *)
Lemma encode_bytes cs : length (encode_string cs) <= 4 * length cs.
Proof. unfold encode_string. induction cs as [|c cs IH]; [simpl; lia|]. cbn [map List.concat length]. rewrite app_length. assert (H := encode_char_length c). lia. Qed.
Lemma joined_bytes xs s : Joined xs s -> Forall (fun x => length x <= 128) xs -> length (encode_string s) + 1 <= 513 * length xs.
Proof.
  induction 1 as [x|x xs s Hne H IH]; intros HF; inversion HF as [|? ? Hx HF']; subst.
  - assert (E := encode_bytes x). simpl. lia.
  - specialize (IH HF'). rewrite encode_string_app. change (0x7F%N :: s) with ([0x7F%N] ++ s). rewrite encode_string_app, !app_length. change (length (encode_string [0x7F%N])) with 1. assert (E := encode_bytes x). cbn [length]. lia.
Qed.
Lemma adds_bytes s a : Adds s a -> (Z.of_nat (length (encode_string a)) <= 5129)%Z.
Proof.
  intros [[_ ->]|(_ & k & pieces & drawn & rest & Hk & HC & HP & Hd & HJ)]; [simpl; lia|].
  assert (Hk' : k <= 128). { destruct Hk as [[H ->]|[[H ->]|[H ->]]]; [lia| |lia]. assert (length s / 10 < 128) by (apply Nat.div_lt_upper_bound; lia). lia. }
  assert (HF : Forall (fun x => length x <= 128) drawn).
  { apply cut_lengths in HC. rewrite HP in HC. apply Forall_app in HC as [HC _]. eapply Forall_impl; [|exact HC]. intros x Hx. cbn in Hx. lia. }
  assert (H := joined_bytes HJ HF). rewrite Hd in H. lia.
Qed.
Lemma infills_bytes g t : Infills g t -> (Z.of_nat (length (encode_string t)) <= 20516)%Z.
Proof.
  intros (Hg & added & HF & ->). assert (H : (Z.of_nat (length (encode_string (List.concat added))) <= 5129 * Z.of_nat (length g))%Z); [|lia].
  clear Hg. induction HF as [|s a g added Ha HF IH]; [simpl; lia|]. cbn [List.concat length]. rewrite encode_string_app, app_length. apply adds_bytes in Ha. lia.
Qed.
(** Samples run out: the run fails if four of them for every 20517 bytes, and four, are not there. *)
Theorem C77_runs_out : forall rand train test files fuel, (forall i n, 0 < n -> rand i n < n) -> (0 <= train)%Z -> length (infilling_pool files) < 4 * fuel ->
  (20517 * (Z.of_nat (length (infilling_pool files)) - 4) < 4 * (test + train))%Z -> generate_infilling rand fuel train test files = Panic.
Proof.
  intros rand train test files fuel Hr Ht Hf Hn. destruct (@C77_ends rand train test files fuel Hr Ht Hf) as [(a & b & E)|E]; [exfalso|exact E].
  destruct (@C77_infilling rand train test files fuel a b Hr Ht Hf E) as (groups & texts & g & t & left & k & HP & HF & [Hg _] & H). cbv zeta in H. destruct H as (Hq & _).
  apply Permutation_length in HP. rewrite !app_length, (groups_length HF), Hg in HP.
  assert (Hb : (stored_bytes (map encode_string texts) <= 20517 * Z.of_nat (length texts))%Z).
  { clear -HF. induction HF as [|g t groups texts Ht HF IH]; [cbn; lia|]. cbn [map length]. rewrite stored_bytes_cons. apply infills_bytes in Ht. lia. }
  lia.
Qed.
Print Assumptions C77_runs_out.
(** If no sample has 289 characters, only empty texts are written, and the program reads nothing from the files. *)
Theorem C77_short : forall rand train test files fuel a b, (forall i n, 0 < n -> rand i n < n) -> (0 <= train)%Z -> length (infilling_pool files) < 4 * fuel ->
  Forall (fun s => length s < 289) (infilling_pool files) -> generate_infilling rand fuel train test files = Ok (a, b) ->
  Forall (fun c => c = x00) a /\ Forall (fun c => c = x00) b /\ file_samples a = Ok [] /\ file_samples b = Ok [].
Proof.
  intros rand train test files fuel a b Hr Ht Hf HS E. destruct (@C77_infilling rand train test files fuel a b Hr Ht Hf E) as (groups & texts & g & t & left & k & HP & HF & _ & H). cbv zeta in H. destruct H as (_ & _ & _ & Ea & Eb).
  rewrite HP in HS. apply Forall_app in HS as [HS _].
  assert (He : forall x, In x (map encode_string texts) -> x = []).
  { clear -HF HS. induction HF as [|g t groups texts (Hg & added & HA & ->) HF IH]; [intros x []|]. cbn [List.concat] in HS. apply Forall_app in HS as [H1 H2]. intros x [<-|Hx]; [|now apply IH].
    assert (E : List.concat added = []); [|now rewrite E]. clear -HA H1. induction HA as [|s a g added Ha HA IH]; [reflexivity|]. inversion H1 as [|? ? Hs H1']; subst. cbn [List.concat]. rewrite (IH H1').
    destruct Ha as [[_ ->]|[Hl _]]; [reflexivity|lia]. }
  assert (HZ : forall l, (forall x, In x l -> x = []) -> Forall (fun c => c = x00) (stored l) /\ file_samples (stored l) = Ok []).
  { clear. intros l Hl. split.
    - unfold stored. apply Forall_forall. intros c Hc. apply in_flat_map in Hc as (x & Hx & Hc). rewrite (Hl x Hx) in Hc. destruct Hc as [<-|[]]. reflexivity.
    - apply file_samples_ok. exists (l ++ [[]]). split; [apply Parts_stored; apply Forall_forall; intros x Hx; rewrite (Hl x Hx); intros []|]. split.
      + apply Forall_app. split; [apply Forall_forall; intros x Hx; rewrite (Hl x Hx); exact Utf8_nil|constructor; [exact Utf8_nil|constructor]].
      + induction l as [|x l IH]; [repeat constructor|]. rewrite (Hl x (or_introl eq_refl)). cbn [app]. apply Nonempty_drop. apply IH. intros y Hy. apply Hl. now right. }
  rewrite Ea, Eb. destruct (HZ (firstn k (map encode_string texts))) as [H1 H2]; [intros x Hx; apply He; eapply In_firstn; eauto|]. destruct (HZ (skipn k (map encode_string texts))) as [H3 H4]; [intros x Hx; apply He; eapply In_skipn; eauto|].
  splits; assumption.
Qed.
Print Assumptions C77_short.
(** Whatever infilling writes is read back by the program: the texts are UTF-8 and have no NUL. *)
Lemma encode_no_nul cs : Forall (fun c => c <> 0%N /\ scalar c) cs -> ~ In x00 (encode_string cs).
Proof.
  induction 1 as [|c cs [Hc Hs] HF IH]; [intros []|]. intros H. unfold encode_string in H. cbn [map List.concat] in H. apply in_app_iff in H as [H|H]; [|now apply IH].
  assert (HB : forall n, (0 < n < 256)%N -> byte_of_N n <> x00).
  { intros n Hn E. assert (E2 := f_equal Byte.to_N E). fold (bN (byte_of_N n)) in E2. rewrite bN_byte_of_N in E2 by lia. change (Byte.to_N x00) with 0%N in E2. lia. }
  unfold scalar in Hs. unfold encode_char in H. assert (Hm := N.mod_upper_bound c 64 ltac:(lia)). assert (Hm2 := N.mod_upper_bound (c / 64) 64 ltac:(lia)). assert (Hm3 := N.mod_upper_bound (c / 4096) 64 ltac:(lia)).
  destruct (N.ltb_spec c 0x80) as [H1|H1]; [|destruct (N.ltb_spec c 0x800) as [H2|H2]; [|destruct (N.ltb_spec c 0x10000) as [H3|H3]]].
  - destruct H as [H|[]]. apply (HB c) in H; [exact H|lia].
  - assert (c / 64 < 32)%N by (apply N.div_lt_upper_bound; lia). destruct H as [H|[H|[]]]; apply HB in H; auto; lia.
  - assert (c / 4096 < 16)%N by (apply N.div_lt_upper_bound; lia). destruct H as [H|[H|[H|[]]]]; apply HB in H; auto; lia.
  - assert (c / 262144 < 8)%N by (apply N.div_lt_upper_bound; lia). destruct H as [H|[H|[H|[H|[]]]]]; apply HB in H; auto; lia.
Qed.
Theorem C77_readable : forall rand train test files fuel a b, (forall i n, 0 < n -> rand i n < n) -> (0 <= train)%Z -> length (infilling_pool files) < 4 * fuel ->
  Forall (Forall scalar) files -> generate_infilling rand fuel train test files = Ok (a, b) ->
  exists texts k la lb, Forall (Forall scalar) texts /\ file_samples a = Ok la /\ file_samples b = Ok lb /\ Nonempty (firstn k (map encode_string texts)) la /\ Nonempty (skipn k (map encode_string texts)) lb.
Proof.
  intros rand train test files fuel a b Hr Ht Hf HS E. destruct (@C77_infilling rand train test files fuel a b Hr Ht Hf E) as (groups & texts & g & t & left & k & HP & HF & _ & H). cbv zeta in H. destruct H as (_ & _ & _ & -> & ->).
  set (P := fun c : N => c <> 0%N /\ scalar c).
  assert (HSp : Forall (Forall P) (infilling_pool files)).
  { unfold infilling_pool. apply Forall_forall. intros s Hs. apply in_flat_map in Hs as (f & Hf' & Hs). apply In_firstn in Hs. rewrite Forall_forall in HS. specialize (HS f Hf').
    assert (Hsp : Split f (split_text f)) by now apply split_text_spec. revert Hs. clear -HS Hsp. induction Hsp as [p Hp|p s' l Hp H IH]; intros Hs.
    - destruct Hs as [<-|[]]. apply Forall_forall. intros c Hc. split; [intros ->; contradiction|]. rewrite Forall_forall in HS. now apply HS.
    - apply Forall_app in HS as [H1 H2]. inversion H2 as [|? ? _ H3]; subst. destruct Hs as [<-|Hs]; [|now apply IH]. apply Forall_forall. intros c Hc. split; [intros ->; contradiction|]. rewrite Forall_forall in H1. now apply H1. }
  rewrite HP in HSp. apply Forall_app in HSp as [HSp _].
  assert (HT : Forall (Forall P) texts).
  { clear -HF HSp. induction HF as [|g t groups texts (Hg & added & HA & ->) HF IH]; [constructor|]. cbn [List.concat] in HSp. apply Forall_app in HSp as [H1 H2]. constructor; [|now apply IH].
    clear -HA H1. induction HA as [|s a g added Ha HA IH]; [constructor|]. inversion H1 as [|? ? Hs H1']; subst. cbn [List.concat]. apply Forall_app. split; [|now apply IH].
    destruct Ha as [[_ ->]|(_ & n & pieces & drawn & rest & _ & HC & HP & _ & HJ)]; [constructor|].
    assert (HD : Forall (Forall P) drawn).
    { assert (Hp : Forall (Forall P) pieces). { apply Forall_forall. intros p Hp. apply Forall_forall. intros c Hc. rewrite Forall_forall in Hs. apply Hs. rewrite <- (cut_concat HC). apply in_concat. eauto. }
      rewrite HP in Hp. now apply Forall_app in Hp as [Hp _]. }
    clear -HJ HD. induction HJ as [x|x xs s Hne H IH]; inversion HD as [|? ? H1 H2]; subst; [exact H1|]. apply Forall_app. split; [exact H1|]. constructor; [|now apply IH]. split; [discriminate|]. unfold scalar. lia. }
  assert (HR : forall l, (forall x, In x l -> In x (map encode_string texts)) -> exists r, file_samples (stored l) = Ok r /\ Nonempty l r).
  { intros l Hl. assert (Hx : forall x, In x l -> Utf8 x /\ ~ In x00 x).
    { intros x Hin. apply Hl in Hin. apply in_map_iff in Hin as (cs & <- & Hcs). rewrite Forall_forall in HT. specialize (HT cs Hcs). split; [|now apply encode_no_nul]. exists cs. split; [|reflexivity]. eapply Forall_impl; [|exact HT]. intros c Hc. apply Hc. }
    assert (HN : exists r, Nonempty l r /\ Nonempty (l ++ [[]]) r).
    { clear. induction l as [|[|b x] l (r & H1 & H2)]; [exists []; split; repeat constructor|exists r; split; now apply Nonempty_drop|exists ((b :: x) :: r); split; now apply Nonempty_keep]. }
    destruct HN as (r & H1 & H2). exists r. split; [|exact H1]. apply file_samples_ok. exists (l ++ [[]]). split; [apply Parts_stored; apply Forall_forall; intros x Hin; now apply Hx|]. split; [|exact H2].
    apply Forall_app. split; [apply Forall_forall; intros x Hin; now apply Hx|constructor; [exact Utf8_nil|constructor]]. }
  destruct (HR (firstn k (map encode_string texts))) as (la & A1 & A2); [intros x; apply In_firstn|]. destruct (HR (skipn k (map encode_string texts))) as (lb & B1 & B2); [intros x; apply In_skipn|].
  exists texts, k, la, lb. splits; auto. eapply Forall_impl; [|exact HT]. intros s Hs. eapply Forall_impl; [|exact Hs]. intros c Hc. apply Hc.
Qed.
Print Assumptions C77_readable.
(** A case: forty-four parts, of which eight may be used. *)
Definition infill_file : list N := List.concat (repeat (repeat 0x61%N 300 ++ [0%N]) 43).
Example C77_example : let rand := fun i n => (7 * i) mod n in
  length (infilling_pool [infill_file]) = 8 /\ Infills (repeat (repeat 0x61%N 300) 4) (List.concat (repeat (List.concat (repeat (repeat 0x61%N 32 ++ [0x7F%N]) 9) ++ repeat 0x61%N 12) 4)) /\
  exists a b, generate_infilling rand 3 0 1 [infill_file] = Ok (a, b) /\ length a = 1237 /\ b = [] /\ generate_infilling rand 3 100 1237 [infill_file] = Panic.
Proof.
  cbv zeta. splits.
  - vm_compute. reflexivity.
  - split; [reflexivity|]. exists (repeat (List.concat (repeat (repeat 0x61%N 32 ++ [0x7F%N]) 9) ++ repeat 0x61%N 12) 4). split; [|reflexivity].
    assert (H : Adds (repeat 0x61%N 300) (List.concat (repeat (repeat 0x61%N 32 ++ [0x7F%N]) 9) ++ repeat 0x61%N 12)); [|revert H; generalize (repeat 0x61%N 300), (List.concat (repeat (repeat 0x61%N 32 ++ [0x7F%N]) 9) ++ repeat 0x61%N 12); intros s a H; cbn [repeat]; do 4 (apply Forall2_cons; [exact H|]); apply Forall2_nil].
    right. split; [rewrite repeat_length; lia|]. exists 32, (repeat (repeat 0x61%N 32) 9 ++ [repeat 0x61%N 12]), (repeat (repeat 0x61%N 32) 9 ++ [repeat 0x61%N 12]), []. rewrite app_nil_r. splits.
    + left. rewrite repeat_length. lia.
    + assert (E : repeat (repeat 0x61%N 32) 9 ++ [repeat 0x61%N 12] = chunks 300 32 (repeat 0x61%N 300)) by (vm_compute; reflexivity). rewrite E. apply chunks_cut; [lia|rewrite repeat_length; lia].
    + reflexivity.
    + reflexivity.
    + generalize (repeat 0x61%N 32), (repeat 0x61%N 12). intros p q. cbn [repeat app List.concat]. rewrite <- ?app_assoc. cbn [app]. repeat (apply Joined_more; [discriminate|]). apply Joined_one.
  - eexists. eexists. splits; [vm_compute; reflexivity|reflexivity|reflexivity|]. vm_compute. reflexivity.
Qed.
