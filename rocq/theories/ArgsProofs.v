(** Proofs about the command line. *)
From Coq.Strings Require Import String.
From Verif Require Import Base BaseProofs F64 SpecUtf8 Utf8 Utf8Proofs SpecJson Json Serde SerdeProofs JsonWrite Args SpecArgs.
Set Implicit Arguments.
Local Open Scope string_scope.
Local Open Scope list_scope.

Definition cname (c : cmd) : string :=
  match c with
  | CGenerate => "generate" | CPrune => "prune" | CFilter => "filter" | CMerge => "merge" | CRegex => "regex" | CMine => "mine" | CEncode => "encode" | CDecode => "decode"
  end.
Definition cmd_of (c : command) : cmd :=
  match c with
  | Generate _ => CGenerate | Prune _ => CPrune | Filter _ => CFilter | Merge _ => CMerge | Regex _ => CRegex | Mine _ => CMine | Encode _ => CEncode | Decode _ => CDecode
  end.
Definition opts (c : cmd) : list opt :=
  match find (fun p => String.eqb (fst p) (cname c)) manual with Some p => snd p | None => [] end.

Lemma B_inj a b : B a = B b -> a = b.
Proof. unfold B. intros H. apply (f_equal string_of_list_byte) in H. now rewrite !string_of_list_byte_of_string in H. Qed.
Lemma name_cmd x : name_of x = cname (cmd_of x). Proof. now destruct x. Qed.
Lemma cmd_named_iff s c : cmd_named s = Some c <-> s = B (cname c).
Proof.
  unfold cmd_named, beqs. split.
  - repeat match goal with |- context [bytes_eqb ?a ?b] => destruct (bytes_eqb_spec a b) as [->|] end; intros H; try discriminate; injection H as <-; reflexivity.
  - intros ->. destruct c; reflexivity.
Qed.
Lemma manual_opts c os : In (cname c, os) manual <-> os = opts c.
Proof.
  split.
  - unfold manual. cbn [In]. intros H. destruct c; cbn [cname] in H; repeat (destruct H as [H|H]; [first [discriminate H | injection H as <-; reflexivity]|]); contradiction.
  - intros ->. destruct c; cbn; tauto.
Qed.
Lemma cname_inj c c' : B (cname c) = B (cname c') -> c = c'.
Proof. destruct c, c'; intros H; try reflexivity; discriminate H. Qed.

Definition same_option (fl : list bytes * bytes * ty) (o : opt) : Prop :=
  snd fl = snd o /\ (forall f, In f (fst (fst fl)) <-> In f (map B (fst o))) /\ In (snd (fst fl)) (map B (fst o)).
Lemma tables c : Forall2 same_option (flags_of c) (opts c).
Proof.
  assert (H1 : forall long t, same_option (flag "" long t) ([long], t)).
  { intros long t. split; [reflexivity|]. split; [reflexivity|]. now left. }
  assert (H2 : forall a short long t, same_option (flag (String a short) long t) ([String a short; long], t)).
  { intros a short long t. split; [reflexivity|]. split; [|right; now left]. intros f. cbn [flag fst map In]. tauto. }
  destruct c; cbv [flags_of opts manual find cname String.eqb Ascii.eqb fst snd Bool.eqb]; repeat (constructor; [first [apply H1|apply H2]|]); constructor.
Qed.
Fixpoint distinct (l : list bytes) : bool := match l with [] => true | a :: l' => negb (existsb (bytes_eqb a) l') && distinct l' end.
Lemma flags_distinct c : distinct (flat_map (fun fl => fst (fst fl)) (flags_of c)) = true.
Proof. destruct c; vm_compute; reflexivity. Qed.
Lemma existsb_in f l : existsb (bytes_eqb f) l = true <-> In f l.
Proof.
  rewrite existsb_exists. split.
  - intros (y & Hy & E). destruct (bytes_eqb_spec f y); [now subst|discriminate].
  - intros H. exists f. split; [exact H|]. destruct (bytes_eqb_spec f f); congruence.
Qed.
Lemma find_flag_aux f (l : list (list bytes * bytes * ty)) fl : distinct (flat_map (fun fl => fst (fst fl)) l) = true ->
  find (fun '(names, _, _) => existsb (bytes_eqb f) names) l = Some fl <-> In fl l /\ In f (fst (fst fl)).
Proof.
  induction l as [|[[names long] t] l IH]; intros HD; cbn [find flat_map fst] in *.
  - split; [discriminate|intros [[] _]].
  - assert (HD2 : distinct (flat_map (fun fl => fst (fst fl)) l) = true /\ forall g, In g names -> In g (flat_map (fun fl => fst (fst fl)) l) -> False).
    { clear IH. revert HD. generalize (flat_map (fun fl : list bytes * bytes * ty => fst (fst fl)) l) as r. intros r. induction names as [|a names IHn]; cbn [app distinct]; intros HD.
      - split; [exact HD|intros ? []].
      - apply andb_true_iff in HD as [Ha HD]. destruct (IHn HD) as [H1 H2]. split; [exact H1|]. intros g [->|Hg] Hr; [|now apply (H2 g)].
        apply negb_true_iff in Ha. rewrite existsb_app in Ha. apply orb_false_iff in Ha as [_ Ha]. apply existsb_in in Hr. congruence. }
    destruct HD2 as [HD1 HD2]. destruct (existsb (bytes_eqb f) names) eqn:E.
    + apply existsb_in in E. split.
      * intros H. injection H as <-. split; [now left|exact E].
      * intros [[<-|Hin] Hf]; [reflexivity|]. exfalso. apply (HD2 f E). apply in_flat_map. eauto.
    + rewrite (IH HD1). split.
      * intros [H1 H2]. split; [now right|exact H2].
      * intros [[<-|Hin] Hf]; [|auto]. cbn [fst] in Hf. apply existsb_in in Hf. congruence.
Qed.
Lemma find_flag c f fl : find (fun '(names, _, _) => existsb (bytes_eqb f) names) (flags_of c) = Some fl <-> In fl (flags_of c) /\ In f (fst (fst fl)).
Proof. apply find_flag_aux, flags_distinct. Qed.
Lemma flag_names c fl f : In fl (flags_of c) -> In f (fst (fst fl)) -> is_flag f = true /\ is_help f = false.
Proof.
  intros Hin Hf. assert (H : forallb (fun f => is_flag f && negb (is_help f)) (flat_map (fun fl => fst (fst fl)) (flags_of c)) = true) by (destruct c; vm_compute; reflexivity).
  rewrite forallb_forall in H. assert (Hf' : In f (flat_map (fun fl => fst (fst fl)) (flags_of c))) by (apply in_flat_map; eauto). apply H in Hf'. apply andb_true_iff in Hf' as [H1 H2]. split; [exact H1|]. now apply negb_true_iff.
Qed.

(** *** Values *)
Lemma is_digit_iff b : is_digit b = true <-> digit b.
Proof. unfold is_digit, digit. rewrite andb_true_iff, !N.leb_le. reflexivity. Qed.
Lemma digits_mono s acc : (acc <= fold_left (fun acc b => 10 * acc + (bN b - 48)) s acc)%N.
Proof. revert acc. induction s as [|b s IH]; intros acc; cbn [fold_left]; [lia|]. specialize (IH (10 * acc + (bN b - 48))%N). lia. Qed.
Lemma parse_digits_iff s : forall acc n, (acc < 2 ^ 64)%N -> parse_digits acc s = Some n <->
  Forall digit s /\ fold_left (fun acc b => 10 * acc + (bN b - 48))%N s acc = n /\ (n < 2 ^ 64)%N.
Proof.
  induction s as [|b s IH]; intros acc n Ha.
  - cbn [parse_digits fold_left]. split.
    + intros H. injection H as <-. auto.
    + intros (_ & -> & _). reflexivity.
  - cbn [parse_digits fold_left]. destruct (is_digit b) eqn:Ed.
    + apply is_digit_iff in Ed. destruct (N.ltb_spec (10 * acc + (bN b - 48)) (2 ^ 64)) as [Hl|Hl].
      * rewrite (IH _ _ Hl). split; intros (HF & H); (split; [|exact H]); [now constructor|now inversion HF].
      * split; [discriminate|]. intros (_ & E & Hn). exfalso. assert (H := digits_mono s (10 * acc + (bN b - 48))). rewrite E in H. lia.
    + split; [discriminate|]. intros (HF & _). inversion HF as [|? ? Hb]. apply is_digit_iff in Hb. congruence.
Qed.
Lemma parse_usize_iff s k : parse_usize s = Some k <-> exists n, k = N.to_nat n /\ Natural s n /\ (n < 2 ^ 64)%N.
Proof.
  assert (HD : forall d, d <> [] -> option_map N.to_nat (parse_digits 0 d) = Some k <-> exists n, k = N.to_nat n /\ (Digits d /\ fold_left (fun acc b => 10 * acc + (bN b - 48))%N d 0%N = n) /\ (n < 2 ^ 64)%N).
  { intros d Hd. split.
    - destruct (parse_digits 0 d) as [n|] eqn:E; [|discriminate]. intros H. injection H as <-. apply parse_digits_iff in E as (H1 & H2 & H3); [|reflexivity]. exists n. unfold Digits. auto.
    - intros (n & -> & ([_ H1] & H2) & H3). assert (E : parse_digits 0 d = Some n) by (apply parse_digits_iff; [reflexivity|auto]). now rewrite E. }
  assert (HP : ~ digit x2b) by (unfold digit; vm_compute; intros [H _]; now apply H).
  unfold parse_usize. destruct s as [|b s].
  - split; [discriminate|]. intros (n & _ & (d & [<-|H] & [Hd _] & _) & _); [congruence|discriminate].
  - destruct (byte_eqb_spec b x2b) as [->|Hb].
    + assert (HE : (exists n, k = N.to_nat n /\ Natural (x2b :: s) n /\ (n < 2 ^ 64)%N) <-> exists n, k = N.to_nat n /\ (Digits s /\ fold_left (fun acc b => 10 * acc + (bN b - 48))%N s 0%N = n) /\ (n < 2 ^ 64)%N).
      { split; intros (n & E & H & Hl); exists n; (split; [exact E|]); (split; [|exact Hl]).
        - destruct H as (d & [<-|H] & HD' & HF); [|injection H as <-; auto]. destruct HD' as [_ HD']. inversion HD'; contradiction.
        - exists s. auto. }
      rewrite HE. destruct s as [|b s].
      * split; [discriminate|]. intros (n & _ & ([H _] & _) & _). congruence.
      * apply HD. discriminate.
    + rewrite HD by discriminate. split; intros (n & E & H & Hl); exists n; (split; [exact E|]); (split; [|exact Hl]).
      * exists (b :: s). auto.
      * destruct H as (d & [<-|H] & HD' & HF); [auto|]. injection H as -> _. congruence.
Qed.
Lemma Natural_Utf8 s n : Natural s n -> Utf8 s.
Proof.
  intros (d & H & [_ HD] & _). assert (HA : Forall (fun b => (bN b < 128)%N) d) by (eapply Forall_impl; [|exact HD]; intros b Hb; unfold digit in Hb; change (bN b) with (Byte.to_N b); lia).
  apply ascii_Utf8. destruct H as [->| ->]; [exact HA|]. constructor; [reflexivity|exact HA].
Qed.
Section P.
  Variable pf : bytes -> option f64.
  Lemma value_iff t s v : value_from_str pf t s = Some v <-> Means pf t s v.
  Proof.
    unfold value_from_str. split.
    - destruct (utf8_ok s) eqn:EU; [|discriminate]. apply utf8_ok_spec in EU. destruct t.
      + intros H. injection H as <-. now constructor.
      + destruct (parse_usize s) as [k|] eqn:E; [|discriminate]. intros H. injection H as <-. apply parse_usize_iff in E as (n & -> & HN & Hl). now constructor.
      + destruct (pf s) as [x|] eqn:E; [|discriminate]. intros H. injection H as <-. now constructor.
      + unfold parse_bool, beqs. destruct (bytes_eqb_spec s (B "true")) as [->|]; [|destruct (bytes_eqb_spec s (B "false")) as [->|]; [|discriminate]]; intros H; injection H as <-; constructor.
    - intros H. destruct H as [s HU|s n HN Hl|s x HU E| |].
      + apply utf8_ok_spec in HU. now rewrite HU.
      + assert (HU := Natural_Utf8 HN). apply utf8_ok_spec in HU. rewrite HU. assert (E : parse_usize s = Some (N.to_nat n)) by (apply parse_usize_iff; eauto). now rewrite E.
      + apply utf8_ok_spec in HU. now rewrite HU, E.
      + reflexivity.
      + reflexivity.
  Qed.

  (** *** The loop *)
  Definition reads (c : cmd) (p : bytes * bytes) (g : bytes * val) : Prop :=
    exists names t, In (names, fst g, t) (flags_of c) /\ In (fst p) names /\ Means pf t (snd p) (snd g).
  Lemma pair_induction (P : list bytes -> Prop) : P [] -> (forall a, P [a]) -> (forall a b l, P l -> P (a :: b :: l)) -> forall l, P l.
  Proof.
    intros H0 H1 H2. assert (H : forall l, P l /\ forall a, P (a :: l)); [|intros l; apply H]. induction l as [|b l [IH1 IH2]]; [now split|]. split; [apply IH2|]. intros a. now apply H2.
  Qed.
  Lemma parse_step c acc arg v args : parse_flags pf c acc (arg :: v :: args) =
    if is_flag arg then if is_help arg then PHelp else
      match find (fun '(names, _, _) => existsb (bytes_eqb arg) names) (flags_of c) with
      | Some (_, long, t) => match value_from_str pf t v with Some x => parse_flags pf c (acc ++ [(long, x)]) args | None => PUsage end
      | None => PUsage
      end
    else PUsage.
  Proof. reflexivity. Qed.
  Lemma parse_reads c ps gs : Forall2 (reads c) ps gs -> forall acc rest, parse_flags pf c acc (line ps ++ rest) = parse_flags pf c (acc ++ gs) rest.
  Proof.
    induction 1 as [|[f v] [long x] ps gs (names & t & Hin & Hf & HM) _ IH]; intros acc rest; [now rewrite app_nil_r|].
    cbn [fst snd] in *. change (line ((f, v) :: ps) ++ rest) with (f :: v :: (line ps ++ rest)). rewrite parse_step.
    destruct (@flag_names c _ f Hin Hf) as [H1 H2]. rewrite H1, H2. assert (E := proj2 (find_flag c f (names, long, t)) (conj Hin Hf)). rewrite E.
    apply value_iff in HM. rewrite HM. rewrite IH. now rewrite <- app_assoc.
  Qed.
  Lemma parse_flags_iff c x : forall args acc, parse_flags pf c acc args = PCommand x <->
    exists ps gs, args = line ps /\ Forall2 (reads c) ps gs /\ finish c (acc ++ gs) = Some x.
  Proof.
    intros args acc. split.
    - revert acc. induction args as [|a|f v args IH] using pair_induction; intros acc.
      + cbn [parse_flags]. destruct (finish c acc) as [y|] eqn:E; [|discriminate]. intros H. injection H as ->. exists [], []. rewrite app_nil_r. auto.
      + cbn [parse_flags]. destruct (is_flag a); [|discriminate]. destruct (is_help a); [discriminate|]. destruct (find _ _) as [[[? ?] ?]|]; discriminate.
      + rewrite parse_step. destruct (is_flag f); [|discriminate]. destruct (is_help f); [discriminate|]. destruct (find _ _) as [[[names long] t]|] eqn:E; [|discriminate].
        destruct (value_from_str pf t v) as [y|] eqn:Ev; [|discriminate]. intros H. apply IH in H as (ps & gs & -> & HF & H). apply find_flag in E as [Hin Hf]. apply value_iff in Ev.
        exists ((f, v) :: ps), ((long, y) :: gs). split; [reflexivity|]. split; [|now rewrite <- app_assoc in H]. constructor; [|exact HF]. exists names, t. auto.
    - intros (ps & gs & -> & HF & E). rewrite <- (app_nil_r (line ps)). rewrite (parse_reads HF). cbn [parse_flags]. now rewrite E.
  Qed.
  Lemma parse_help_iff c : forall args acc, parse_flags pf c acc args = PHelp <->
    exists ps gs h rest, args = line ps ++ h :: rest /\ Forall2 (reads c) ps gs /\ In h [B "--help"; B "-h"].
  Proof.
    assert (HH : forall h, is_help h = true <-> In h [B "--help"; B "-h"]).
    { intros h. unfold is_help, beqs. rewrite orb_true_iff. destruct (bytes_eqb_spec h (B "--help")) as [H1|H1]; [rewrite H1; split; [now left|now left]|]. destruct (bytes_eqb_spec h (B "-h")) as [H2|H2]; [rewrite H2; split; [now right; left|now right]|]. split; [intros [H|H]; discriminate|]. intros [H|[H|[]]]; congruence. }
    intros args acc. split.
    - revert acc. induction args as [|a|f v args IH] using pair_induction; intros acc.
      + cbn [parse_flags]. destruct (finish c acc); discriminate.
      + cbn [parse_flags]. destruct (is_flag a); [|discriminate]. destruct (is_help a) eqn:E; [|destruct (find _ _) as [[[? ?] ?]|]; discriminate]. intros _. exists [], [], a, []. split; [reflexivity|]. split; [constructor|now apply HH].
      + rewrite parse_step. destruct (is_flag f); [|discriminate]. destruct (is_help f) eqn:Eh; [intros _; exists [], [], f, (v :: args); split; [reflexivity|split; [constructor|now apply HH]]|].
        destruct (find _ _) as [[[names long] t]|] eqn:E; [|discriminate].
        destruct (value_from_str pf t v) as [y|] eqn:Ev; [|discriminate]. intros H. apply IH in H as (ps & gs & h & rest & -> & HF & H). apply find_flag in E as [Hin Hf]. apply value_iff in Ev.
        exists ((f, v) :: ps), ((long, y) :: gs), h, rest. split; [reflexivity|]. split; [|exact H]. constructor; [|exact HF]. exists names, t. auto.
    - intros (ps & gs & h & rest & -> & HF & H). rewrite (parse_reads HF). cbn [parse_flags]. assert (Hf : is_flag h = true) by (destruct H as [<-|[<-|[]]]; reflexivity). apply HH in H. now rewrite Hf, H.
  Qed.

  (** *** The structs *)
  Definition typed (t : ty) (v : val) : Prop := match t, v with TString, VString _ | TUsize, VUsize _ | TF64, VF64 _ | TBool, VBool _ => True | _, _ => False end.
  Lemma Means_typed t s v : Means pf t s v -> typed t v. Proof. now destruct 1. Qed.
  Lemma strings_back l : Forall (typed TString) l -> map VString (strings l) = l.
  Proof. induction 1 as [|[] l H _ IH]; try contradiction; [reflexivity|]. cbn. now f_equal. Qed.
  Lemma usizes_back l : Forall (typed TUsize) l -> map VUsize (usizes l) = l.
  Proof. induction 1 as [|[] l H _ IH]; try contradiction; [reflexivity|]. cbn. now f_equal. Qed.
  Lemma f64s_back l : Forall (typed TF64) l -> map VF64 (f64s l) = l.
  Proof. induction 1 as [|[] l H _ IH]; try contradiction; [reflexivity|]. cbn. now f_equal. Qed.
  Lemma bools_back l : Forall (typed TBool) l -> map VBool (bools l) = l.
  Proof. induction 1 as [|[] l H _ IH]; try contradiction; [reflexivity|]. cbn. now f_equal. Qed.
  Lemma strings_of l : strings (map VString l) = l. Proof. induction l; [reflexivity|]. cbn. now f_equal. Qed.
  Lemma required_map {A} (v : A -> val) l a : required l = Some a <-> map v l = one v a /\ l = [a].
  Proof. split; [|intros [_ ->]; reflexivity]. destruct l as [|b []]; try discriminate. intros H. injection H as ->. auto. Qed.
  Lemma optional_map {A} (v : A -> val) l a : optional l = Some a -> map v l = perhaps v a.
  Proof. destruct l as [|b []]; try discriminate; intros H; injection H as <-; reflexivity. Qed.
  Definition well_typed (c : cmd) (gs : list (bytes * val)) : Prop :=
    forall names long t, In (names, B long, t) (flags_of c) -> Forall (typed t) (vals long gs).
  Definition agrees (gs : list (bytes * val)) (fl : list bytes * bytes * ty) (s : string * list val) : Prop :=
    snd (fst fl) = B (fst s) /\ vals (fst s) gs = snd s.
  Lemma agrees_one_s gs names long t a : B long = B long -> t = TString -> Forall (typed t) (vals long gs) -> required (strings (vals long gs)) = Some a -> agrees gs (names, B long, t) (long, one VString a).
  Proof. intros _ -> HT H. split; [reflexivity|]. apply (required_map VString) in H as [H _]. now rewrite strings_back in H. Qed.
  Lemma agrees_one_u gs names long t a : B long = B long -> t = TUsize -> Forall (typed t) (vals long gs) -> required (usizes (vals long gs)) = Some a -> agrees gs (names, B long, t) (long, one VUsize a).
  Proof. intros _ -> HT H. split; [reflexivity|]. apply (required_map VUsize) in H as [H _]. now rewrite usizes_back in H. Qed.
  Lemma agrees_opt_s gs names long t a : t = TString -> Forall (typed t) (vals long gs) -> optional (strings (vals long gs)) = Some a -> agrees gs (names, B long, t) (long, perhaps VString a).
  Proof. intros -> HT H. split; [reflexivity|]. apply (optional_map VString) in H. now rewrite strings_back in H. Qed.
  Lemma agrees_opt_u gs names long t a : t = TUsize -> Forall (typed t) (vals long gs) -> optional (usizes (vals long gs)) = Some a -> agrees gs (names, B long, t) (long, perhaps VUsize a).
  Proof. intros -> HT H. split; [reflexivity|]. apply (optional_map VUsize) in H. now rewrite usizes_back in H. Qed.
  Lemma agrees_opt_f gs names long t a : t = TF64 -> Forall (typed t) (vals long gs) -> optional (f64s (vals long gs)) = Some a -> agrees gs (names, B long, t) (long, perhaps VF64 a).
  Proof. intros -> HT H. split; [reflexivity|]. apply (optional_map VF64) in H. now rewrite f64s_back in H. Qed.
  Lemma agrees_opt_b gs names long t a : t = TBool -> Forall (typed t) (vals long gs) -> optional (bools (vals long gs)) = Some a -> agrees gs (names, B long, t) (long, perhaps VBool a).
  Proof. intros -> HT H. split; [reflexivity|]. apply (optional_map VBool) in H. now rewrite bools_back in H. Qed.
  Lemma agrees_rep gs names long t : t = TString -> Forall (typed t) (vals long gs) -> agrees gs (names, B long, t) (long, map VString (strings (vals long gs))).
  Proof. intros -> HT. split; [reflexivity|]. cbn [fst snd]. now rewrite strings_back. Qed.
  Lemma settings_long x : Forall2 (fun fl s => snd (fst fl) = B (fst s)) (flags_of (cmd_of x)) (settings x).
  Proof. destruct x; cbn [cmd_of flags_of settings]; unfold flag; repeat (constructor; [reflexivity|]); constructor. Qed.
  Lemma finish_iff c gs x : well_typed c gs -> finish c gs = Some x <-> c = cmd_of x /\ Forall2 (agrees gs) (flags_of c) (settings x).
  Proof.
    intros HT. split.
    - intros H. destruct c; cbn [finish] in H;
        repeat match type of H with obind ?e _ = Some _ => destruct e eqn:?; cbn [obind] in H; [|discriminate H] end;
        injection H as <-; (split; [reflexivity|]); cbn [cmd_of settings];
        unfold well_typed in HT; cbn [flags_of] in *; unfold flag in *;
        repeat (constructor;
          [first [apply agrees_one_s|apply agrees_one_u|apply agrees_opt_s|apply agrees_opt_u|apply agrees_opt_f|apply agrees_opt_b|apply agrees_rep];
           first [reflexivity|assumption|eapply HT; cbn [In]; repeat (first [left; reflexivity|right])]|]); constructor.
    - intros [-> HF]. clear HT. destruct x as [[]|[]|[]|[]|[]|[]|[]|[]]; cbn [cmd_of flags_of settings] in HF;
        repeat match goal with H : Forall2 _ (_ :: _) (_ :: _) |- _ => let H1 := fresh in let H2 := fresh in inversion H as [|? ? ? ? H1 H2]; subst; clear H; destruct H1 as [_ H1]; cbn [fst snd] in H1 end;
        cbn [cmd_of finish]; repeat match goal with H : vals _ gs = _ |- _ => rewrite H; clear H end;
        rewrite ?strings_of; repeat match goal with o : option _ |- _ => destruct o end; reflexivity.
  Qed.
  Lemma Means_fun t s v v' : Means pf t s v -> Means pf t s v' -> v = v'.
  Proof. intros H1 H2. apply value_iff in H1, H2. congruence. Qed.
  Lemma long_own c fl : In fl (flags_of c) -> In (snd (fst fl)) (fst (fst fl)).
  Proof.
    intros H. assert (HF := tables c). assert (HX : exists o, same_option fl o).
    { clear - HF H. induction HF as [|fl' o l l' Ho _ IH]; [contradiction|]. destruct H as [->|H]; eauto. }
    destruct HX as (o & _ & H1 & H2). now apply H1.
  Qed.
  Lemma long_unique c fl fl' f : In fl (flags_of c) -> In fl' (flags_of c) -> In f (fst (fst fl)) -> In f (fst (fst fl')) -> fl = fl'.
  Proof.
    intros H1 H2 Hf Hf'. assert (E := proj2 (find_flag c f fl) (conj H1 Hf)). assert (E' := proj2 (find_flag c f fl') (conj H2 Hf')). congruence.
  Qed.
  Lemma reads_values c names long t onames ps gs : In (names, B long, t) (flags_of c) -> same_option (names, B long, t) (onames, t) -> Forall2 (reads c) ps gs ->
    Forall2 (Means pf t) (given onames ps) (vals long gs).
  Proof.
    intros Hin (_ & HS & _) HF. cbn [fst snd] in HS. unfold given, vals. induction HF as [|[f v] [l x] ps gs (names' & t' & Hin' & Hf & HM) _ IH]; [constructor|]. cbn [filter fst snd] in *.
    destruct (bytes_eqb_spec l (B long)) as [->|Hn].
    - assert (E := @long_unique c _ _ (B long) Hin Hin' (@long_own c _ Hin) (@long_own c _ Hin')). injection E as <- <-.
      apply HS, existsb_in in Hf. rewrite Hf. cbn [map snd]. now constructor.
    - destruct (existsb (bytes_eqb f) (map B onames)) eqn:E; [|exact IH]. exfalso. apply existsb_in, HS in E. assert (E' := @long_unique c _ _ f Hin Hin' E Hf). congruence.
  Qed.
  Lemma reads_typed c ps gs : Forall2 (reads c) ps gs -> well_typed c gs.
  Proof.
    intros HF names long t Hin. unfold vals. induction HF as [|[f v] [l x] ps gs (names' & t' & Hin' & Hf & HM) _ IH]; [constructor|]. cbn [filter fst snd] in *.
    destruct (bytes_eqb_spec l (B long)) as [->|Hn]; [|exact IH]. cbn [map snd]. constructor; [|exact IH].
    assert (E := @long_unique c _ _ (B long) Hin Hin' (@long_own c _ Hin) (@long_own c _ Hin')). injection E as <- <-. eapply Means_typed. exact HM.
  Qed.
  Lemma opts_in c o : In o (opts c) -> exists fl, In fl (flags_of c) /\ same_option fl o.
  Proof. assert (HF := tables c). induction HF as [|fl o' l l' Ho _ IH]; [intros []|]. intros [->|H]; [exists fl; split; [now left|exact Ho]|]. destruct (IH H) as (fl' & H1 & H2). exists fl'. split; [now right|exact H2]. Qed.
  Lemma flags_in c fl : In fl (flags_of c) -> exists o, In o (opts c) /\ same_option fl o.
  Proof. assert (HF := tables c). induction HF as [|fl' o l l' Ho _ IH]; [intros []|]. intros [->|H]; [exists o; split; [now left|exact Ho]|]. destruct (IH H) as (o' & H1 & H2). exists o'. split; [now right|exact H2]. Qed.
  Lemma Known_iff c p : Known pf (cname c) p <-> exists g, reads c p g.
  Proof.
    split.
    - intros (os & names & t & v & Hos & Hin & Hp & HM). apply manual_opts in Hos as ->. apply opts_in in Hin as ([[names' long] t'] & Hfl & (E & HS & _)). cbn [fst snd] in *. subst t'.
      exists (long, v). exists names', t. split; [exact Hfl|]. split; [now apply HS|exact HM].
    - intros ([long v] & names & t & Hin & Hp & HM). destruct (flags_in _ _ Hin) as ([onames t'] & Ho & (E & HS & _)). cbn [fst snd] in *. subst t'.
      exists (opts c), onames, t, v. split; [now apply manual_opts|]. split; [exact Ho|]. split; [now apply HS|exact HM].
  Qed.
  Lemma Known_reads c ps : Forall (Known pf (cname c)) ps <-> exists gs, Forall2 (reads c) ps gs.
  Proof.
    split.
    - induction 1 as [|p ps Hp _ [gs IH]]; [exists []; constructor|]. apply Known_iff in Hp as [g Hg]. exists (g :: gs). now constructor.
    - intros [gs HF]. induction HF as [|p g ps gs Hp _ IH]; constructor; [|exact IH]. apply Known_iff. eauto.
  Qed.
  Lemma Forall2_fun {A C} (P : A -> C -> Prop) l l1 l2 : (forall a c c', P a c -> P a c' -> c = c') -> Forall2 P l l1 -> Forall2 P l l2 -> l1 = l2.
  Proof. intros HP H. revert l2. induction H as [|a c l l1 Ha _ IH]; intros l2 H2; inversion H2 as [|? d ? l2' Hd H2']; subst; [reflexivity|]. f_equal; [eapply HP; eassumption|now apply IH]. Qed.
  Lemma agree_iff x ps gs : Forall2 (reads (cmd_of x)) ps gs ->
    Forall2 (agrees gs) (flags_of (cmd_of x)) (settings x) <->
    Forall2 (fun (o : opt) (s : string * list val) => In (fst s) (fst o) /\ Forall2 (Means pf (snd o)) (given (fst o) ps) (snd s)) (opts (cmd_of x)) (settings x).
  Proof.
    intros HR. set (c := cmd_of x) in *. assert (HT := tables c). assert (HL := settings_long x). fold c in HL.
    assert (Hin : Forall (fun fl => In fl (flags_of c)) (flags_of c)) by (apply Forall_forall; auto).
    revert HT HL Hin. generalize (flags_of c) at 1 2 4 5 as fls. generalize (opts c) as os. generalize (settings x) as ss.
    intros ss os fls HT. revert ss. induction HT as [|[[names long] t] [onames t'] fls os Ho HT IH]; intros ss HL Hin; inversion HL as [|? [l vs] ? ss' El HL']; subst.
    - split; constructor.
    - cbn [fst snd] in *. try subst long. inversion Hin as [|? ? Hfl Hin']; subst. specialize (IH ss' HL' Hin').
      destruct Ho as (E & HS & HI). cbn [fst snd] in E, HS, HI. subst t'. assert (HV := @reads_values c names l t onames ps gs Hfl (conj eq_refl (conj HS HI)) HR).
      assert (HIl : In l onames) by (apply in_map_iff in HI as (l' & E & HI); now apply B_inj in E as ->).
      split; intros H; inversion H as [|? ? ? ? H1 H2]; subst; (constructor; [|now apply IH]).
      + destruct H1 as [_ H1]. cbn [fst snd] in *. subst vs. auto.
      + destruct H1 as [_ H1]. cbn [fst snd] in *. split; [reflexivity|]. cbn [fst snd]. eapply Forall2_fun; [|exact HV|exact H1]. intros; eapply Means_fun; eassumption.
  Qed.
  Theorem parse_iff args x : parse_args pf args = PCommand x <-> exists ps, args = B (name_of x) :: line ps /\ Calls pf ps x.
  Proof.
    rewrite name_cmd. split.
    - unfold parse_args. destruct args as [|arg args]; [discriminate|]. destruct (is_flag arg); [destruct (is_help arg); discriminate|]. destruct (cmd_named arg) as [c|] eqn:E; [|discriminate].
      apply cmd_named_iff in E as ->. intros H. apply parse_flags_iff in H as (ps & gs & -> & HF & H). cbn [app] in H. apply finish_iff in H as [-> H]; [|eapply reads_typed; exact HF].
      exists ps. split; [reflexivity|]. exists (opts (cmd_of x)). rewrite name_cmd. split; [now apply manual_opts|]. split; [apply Known_reads; eauto|]. now apply (agree_iff x HF).
    - intros (ps & -> & (os & Hos & HK & HA)). rewrite name_cmd in Hos, HK. apply manual_opts in Hos as ->. apply Known_reads in HK as [gs HF]. apply (agree_iff x HF) in HA.
      unfold parse_args. assert (Ef : is_flag (B (cname (cmd_of x))) = false) by (destruct (cmd_of x); reflexivity). rewrite Ef.
      assert (E : cmd_named (B (cname (cmd_of x))) = Some (cmd_of x)) by (now apply cmd_named_iff). rewrite E. apply parse_flags_iff. exists ps, gs. split; [reflexivity|]. split; [exact HF|].
      cbn [app]. apply finish_iff; [eapply reads_typed; exact HF|auto].
  Qed.
  Theorem help_iff args : parse_args pf args = PHelp <-> exists before h rest, args = before ++ h :: rest /\ In h [B "--help"; B "-h"] /\
    (before = [] \/ exists name ps, In name (map fst manual) /\ before = B name :: line ps /\ Forall (Known pf name) ps).
  Proof.
    assert (HN : forall name, In name (map fst manual) <-> exists c, name = cname c).
    { intros name. split.
      - intros H. cbn [map fst manual In] in H. repeat (destruct H as [<-|H]; [first [exists CGenerate; reflexivity|exists CPrune; reflexivity|exists CFilter; reflexivity|exists CMerge; reflexivity|exists CRegex; reflexivity|exists CMine; reflexivity|exists CEncode; reflexivity|exists CDecode; reflexivity]|]). contradiction.
      - intros [c ->]. destruct c; cbn; tauto. }
    split.
    - unfold parse_args. destruct args as [|arg args]; [discriminate|]. destruct (is_flag arg).
      + destruct (is_help arg) eqn:E; [|discriminate]. intros _. exists [], arg, args. split; [reflexivity|]. split; [|now left].
        unfold is_help, beqs in E. apply orb_true_iff in E as [E|E]; [destruct (bytes_eqb_spec arg (B "--help")) as [->|]; [now left|discriminate]|destruct (bytes_eqb_spec arg (B "-h")) as [->|]; [right; now left|discriminate]].
      + destruct (cmd_named arg) as [c|] eqn:E; [|discriminate]. apply cmd_named_iff in E as ->. intros H. apply parse_help_iff in H as (ps & gs & h & rest & -> & HF & Hh).
        exists (B (cname c) :: line ps), h, rest. split; [reflexivity|]. split; [exact Hh|]. right. exists (cname c), ps. split; [apply HN; eauto|]. split; [reflexivity|]. apply Known_reads. eauto.
    - intros (before & h & rest & -> & Hh & [->|(name & ps & Hn & -> & HK)]).
      + cbn [app parse_args]. destruct Hh as [<-|[<-|[]]]; reflexivity.
      + apply HN in Hn as [c ->]. apply Known_reads in HK as [gs HF]. cbn [app parse_args]. assert (Ef : is_flag (B (cname c)) = false) by (destruct c; reflexivity). rewrite Ef.
        assert (E : cmd_named (B (cname c)) = Some c) by (now apply cmd_named_iff). rewrite E. apply parse_help_iff. exists ps, gs, h, rest. auto.
  Qed.
End P.
