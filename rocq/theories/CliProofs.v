(** src/cli.rs: reading the inputs. *)
From Coq Require Import Reals Permutation.
From Verif Require Import Base BaseProofs F64 Utf8 SpecUtf8 Utf8Proofs Processor Tokenizer SpecJson Json Serde Cli SpecCli CountProofs.
Set Implicit Arguments.
Local Open Scope nat_scope.

Lemma map_res_ok {A C} (f : A -> res C) l out : map_res f l = Ok out <-> Forall2 (fun a c => f a = Ok c) l out.
Proof.
  revert out. induction l as [|a l IH]; intros out; simpl.
  - split; [now intros [= <-]|intros H; now inversion H].
  - split.
    + destruct (f a) as [c| | |] eqn:E; try discriminate. simpl. destruct (map_res f l) as [cs| | |] eqn:E'; try discriminate. simpl. intros [= <-].
      constructor; [exact E|]. now apply IH.
    + intros H. inversion H as [|? c ? cs Hc Hcs]; subst. rewrite Hc. simpl. apply IH in Hcs. now rewrite Hcs.
Qed.
Lemma map_res_total {A C} (f : A -> res C) l : (forall a, In a l -> (exists c, f a = Ok c) \/ f a = Panic) -> (exists out, map_res f l = Ok out) \/ map_res f l = Panic.
Proof.
  induction l as [|a l IH]; intros H; simpl; [left; eauto|].
  destruct (H a) as [[c ->]| ->]; [now left| |now right]. simpl. destruct IH as [[cs ->]| ->]; [intros; apply H; now right|left; simpl; eauto|now right].
Qed.

(** ** Splitting *)
Lemma split_on_nonnil sep s : split_on sep s <> [].
Proof. destruct s as [|b s]; simpl; [discriminate|]. destruct (Byte.eqb b sep); [discriminate|]. destruct (split_on sep s); discriminate. Qed.
Lemma split_on_Parts sep s l : split_on sep s = l <-> Parts sep s l.
Proof.
  assert (H : forall s, Parts sep s (split_on sep s)).
  { clear. intros s. induction s as [|b s IH]; simpl.
    - split; [discriminate|]. split; [|reflexivity]. constructor; [intros []|constructor].
    - destruct IH as (Hn & Hf & Ej). destruct (Byte.eqb b sep) eqn:E.
      + apply Byte.byte_dec_bl in E. subst b. split; [discriminate|]. split; [constructor; [intros []|exact Hf]|].
        simpl. rewrite Ej at 1. destruct (split_on sep s); [congruence|reflexivity].
      + destruct (split_on sep s) as [|p ps]; [congruence|]. inversion Hf as [|? ? Hp Hps]. split; [discriminate|]. split; [|simpl; f_equal; exact Ej].
        constructor; [|exact Hps]. intros [->|Hin]; [|now apply Hp]. rewrite (Byte.byte_dec_lb eq_refl) in E. discriminate. }
  split; [intros <-; apply H|]. revert l. induction s as [|b s IH]; intros l (Hn & Hf & Ej).
  - destruct l as [|[|c p] [|q ps]]; try discriminate; [congruence|reflexivity].
  - destruct l as [|[|c p] ps]; [congruence| |].
    + destruct ps as [|q ps]; [discriminate|]. simpl in Ej. injection Ej as -> ->. inversion Hf as [|? ? _ Hf']; subst.
      simpl. rewrite (Byte.byte_dec_lb eq_refl). f_equal. apply IH. split; [discriminate|]. split; [exact Hf'|reflexivity].
    + simpl in Ej. injection Ej as -> ->. inversion Hf as [|? ? Hp Hps]; subst. simpl. destruct (Byte.eqb c sep) eqn:E; [apply Byte.byte_dec_bl in E; subst; destruct Hp; now left|].
      assert (E' : split_on sep (p ++ flat_map (cons sep) ps) = p :: ps); [|now rewrite E'].
      apply IH. split; [discriminate|]. split; [|reflexivity]. constructor; [|exact Hps]. intros Hin. apply Hp. now right.
Qed.
Lemma Parts_fun sep s l l' : Parts sep s l -> Parts sep s l' -> l = l'.
Proof. rewrite <- !split_on_Parts. congruence. Qed.

Lemma Nonempty_iff l l' : Nonempty l l' <-> filter (fun s => negb (is_empty s)) l = l'.
Proof.
  split.
  - induction 1 as [|l l' _ IH|b s l l' _ IH]; simpl; [reflexivity|exact IH|now rewrite IH].
  - intros <-. induction l as [|[|b s] l IH]; simpl; [constructor|now constructor|now constructor].
Qed.
Lemma Processed_iff normalize ps s s' : Processed normalize ps s s' <-> fold_left (fun sample p => preprocess normalize p sample) ps s = s'.
Proof.
  split; [induction 1; simpl; auto|]. revert s. induction ps as [|p ps IH]; simpl; intros s H; [subst|]; constructor. now apply IH.
Qed.
Lemma Forall2_map {A C} (f : A -> C) (R : A -> C -> Prop) l l' : (forall a c, R a c <-> f a = c) -> Forall2 R l l' <-> map f l = l'.
Proof.
  intros H. split; [induction 1; simpl; [reflexivity|]; f_equal; [now apply H|assumption]|].
  intros <-. induction l; constructor; auto. now apply H.
Qed.

Lemma file_samples_ok contents l : file_samples contents = Ok l <->
  exists pieces, Parts x00 contents pieces /\ Forall Utf8 pieces /\ Nonempty pieces l.
Proof.
  unfold file_samples. split.
  - destruct (map_res _ _) as [ps| | |] eqn:E; try discriminate. simpl. intros [= <-]. apply map_res_ok in E.
    assert (H : split_on x00 contents = ps /\ Forall Utf8 ps).
    { clear -E. induction E as [|a c l l' Hc _ [-> IH]]; [now split|]. destruct (utf8_ok a) eqn:Ea; [|discriminate]. injection Hc as ->.
      split; [reflexivity|]. constructor; [now apply utf8_ok_spec|exact IH]. }
    destruct H as [H1 H2]. exists ps. split; [now apply split_on_Parts|]. split; [exact H2|]. now apply Nonempty_iff.
  - intros (ps & HC & HU & HN). apply split_on_Parts in HC. rewrite HC.
    assert (E : map_res (fun s => if utf8_ok s then Ok s else Panic) ps = Ok ps).
    { apply map_res_ok. clear -HU. induction HU as [|a l Ha _ IH]; constructor; [|exact IH]. apply utf8_ok_spec in Ha. now rewrite Ha. }
    rewrite E. simpl. apply Nonempty_iff in HN. now rewrite HN.
Qed.
Lemma file_samples_total contents : (exists l, file_samples contents = Ok l) \/ file_samples contents = Panic.
Proof.
  unfold file_samples. destruct (@map_res_total _ _ (fun s => if utf8_ok s then Ok s else Panic) (split_on x00 contents)) as [[l ->]| ->].
  - intros a _. destruct (utf8_ok a); eauto.
  - left. simpl. eauto.
  - now right.
Qed.

Section Load.
  Variable fs : bytes -> option bytes.
  Variable parse_f64 : bytes -> option f64.
  Variable normalize : unicode_form -> bytes -> bytes.
  Notation load_source := (load_source fs parse_f64 normalize).

  (** Memory can not hold more. *)
  Definition countable (contents : bytes) : Prop := (Z.of_nat (length contents) < 2 ^ 64 - 1)%Z.
  Lemma joined_length sep l : l <> [] -> length l <= S (length (joined sep l)).
  Proof.
    destruct l as [|p ps]; [congruence|]. intros _. simpl. rewrite app_length.
    assert (length ps <= length (flat_map (cons sep) ps)); [|lia]. induction ps as [|q ps IH]; simpl; [lia|]. rewrite app_length. lia.
  Qed.
  Lemma Nonempty_length l l' : Nonempty l l' -> length l' <= length l.
  Proof. induction 1; simpl; lia. Qed.

  Lemma load_source_ok ps src name samples : (forall path, match fs path with Some contents => countable contents | None => True end) ->
    load_source ps src = Ok (Source name samples) <->
    exists path proportion contents, Describes parse_f64 src name path proportion /\ fs path = Some contents /\ Samples normalize ps contents proportion samples.
  Proof.
    intros Hsize. unfold Cli.load_source.
    assert (HM : forall path proportion name',
      (contents <- some (fs path) ;; l <- file_samples contents ;;
       Ok (Source name' (filter (fun s => negb (is_empty s)) (map (fun s => fold_left (fun sample p => preprocess normalize p sample) ps s)
             (firstn (f64_as_usize (fmul (f64_of_nat (length l)) proportion)) l))))) = Ok (Source name samples) <->
      name' = name /\ exists contents, fs path = Some contents /\ Samples normalize ps contents proportion samples).
    { intros path proportion name'. specialize (Hsize path). destruct (fs path) as [contents|]; simpl; [|split; [discriminate|intros (_ & ? & ? & _); discriminate]].
      split.
      - destruct (file_samples contents) as [l| | |] eqn:E; try discriminate. simpl. intros [= -> Es]. split; [reflexivity|]. exists contents. split; [reflexivity|].
        apply file_samples_ok in E as (pieces & HC & HU & HN).
        destruct (@firstn_Share _ l proportion) as (k & Hk & Ek).
        { destruct HC as (Hn & _ & ->). unfold countable in Hsize. assert (H1 := Nonempty_length HN). assert (H2 := joined_length x00 Hn). unfold usize_max. lia. }
        exists pieces, l, k, (map (fun s => fold_left (fun sample p => preprocess normalize p sample) ps s) (firstn k l)).
        split; [exact HC|]. split; [exact HU|]. split; [exact HN|]. split; [exact Hk|]. split.
        + apply Forall2_map with (f := fun s => fold_left (fun sample p => preprocess normalize p sample) ps s); [|reflexivity]. intros; apply Processed_iff.
        + apply Nonempty_iff. now rewrite <- Ek.
      - intros (-> & c & [= <-] & pieces & l & k & processed & HC & HU & HN & Hk & HP & HN2).
        assert (E : file_samples contents = Ok l) by (apply file_samples_ok; eauto). rewrite E. simpl.
        destruct (@firstn_Share _ l proportion) as (k' & Hk' & Ek).
        { destruct HC as (Hn & _ & ->). unfold countable in Hsize. assert (H1 := Nonempty_length HN). assert (H2 := joined_length x00 Hn). unfold usize_max. lia. }
        rewrite Ek, (@Share_fun _ _ _ _ Hk' Hk). do 2 f_equal. apply Nonempty_iff in HN2. rewrite <- HN2. f_equal.
        apply Forall2_map with (f := fun s => fold_left (fun sample p => preprocess normalize p sample) ps s) in HP; [exact HP|]. intros; apply Processed_iff. }
    split.
    - destruct (split_on x3a src) as [|name' [|path more]] eqn:E; try discriminate. apply split_on_Parts in E.
      destruct more as [|text [|]]; simpl; try discriminate.
      + intros H. apply HM in H as (-> & contents & Hc & HS). exists path, f1, contents. split; [left; now split|]. now split.
      + destruct (parse_f64 text) as [x|] eqn:Ep; [|discriminate]. simpl. intros H. apply HM in H as (-> & contents & Hc & HS).
        exists path, x, contents. split; [right; exists text; now split|]. now split.
    - intros (path & x & contents & HD & Hc & HS). destruct HD as [[HC ->]|(text & HC & Hp)]; apply split_on_Parts in HC; rewrite HC; simpl.
      + apply HM. eauto.
      + rewrite Hp. simpl. apply HM. eauto.
  Qed.
  Lemma load_source_total ps src : (exists s, load_source ps src = Ok s) \/ load_source ps src = Panic.
  Proof.
    unfold Cli.load_source. destruct (split_on x3a src) as [|name [|path more]]; auto.
    assert (H : forall x, (exists s, (contents <- some (fs path) ;; l <- file_samples contents ;;
       Ok (Source name (filter (fun s => negb (is_empty s)) (map (fun s => fold_left (fun sample p => preprocess normalize p sample) ps s)
             (firstn (f64_as_usize (fmul (f64_of_nat (length l)) x)) l))))) = Ok s) \/
       (contents <- some (fs path) ;; l <- file_samples contents ;;
       Ok (Source name (filter (fun s => negb (is_empty s)) (map (fun s => fold_left (fun sample p => preprocess normalize p sample) ps s)
             (firstn (f64_as_usize (fmul (f64_of_nat (length l)) x)) l))))) = Panic).
    { intros x. destruct (fs path) as [c|]; simpl; auto. destruct (file_samples_total c) as [[l ->]| ->]; simpl; eauto. }
    destruct more as [|text [|]]; simpl; auto. destruct (parse_f64 text); simpl; auto.
  Qed.
End Load.
