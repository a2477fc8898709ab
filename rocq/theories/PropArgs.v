(** The command line and [main] (src/cli.rs): C64. *)
From Coq Require Import Reals Lra Permutation.
From Flocq Require Import Core.Core IEEE754.BinarySingleNaN.
From Coq.Strings Require Import String.
From Verif Require Import Base BaseProofs F64 F64Proofs FloatErr Utf8 SpecUtf8 Utf8Proofs Trie Model ModelProofs ModelFacts SpecModel Processor ProcessorProofs Tokenizer TokenizerFacts.
From Verif Require Import SpecJson Json Serde SpecSerde Sort SortProofs Par Filter PropFilter Merge PropMerge Generate GenerateProofs PropGenerate Mine MineProofs PropPar Prune PropPrune Patterns Cli SpecCli CliProofs PropCli PropFiles.
From Verif Require Import Args SpecArgs ArgsProofs.
Set Implicit Arguments.
Local Open Scope string_scope.
Local Open Scope list_scope.
Local Open Scope nat_scope.
Notation length := List.length (only parsing).

(** ** Reading the command line *)
(** The arguments call a command exactly if they are its name and then options from the manual with values that can be read,
    where each option of the command has as many values as it needs or may have; and these are the values it gets. *)
Theorem C64_parse : forall parse_f64 args c,
  parse_args parse_f64 args = PCommand c <-> exists ps, args = B (name_of c) :: line ps /\ Calls parse_f64 ps c.
Proof. exact parse_iff. Qed.
Print Assumptions C64_parse.
(** The help is printed exactly if it is asked for before anything is wrong. *)
Theorem C64_help : forall parse_f64 args,
  parse_args parse_f64 args = PHelp <-> exists before h rest, args = before ++ h :: rest /\ In h [B "--help"; B "-h"] /\
    (before = [] \/ exists name ps, In name (map fst manual) /\ before = B name :: line ps /\ Forall (Known parse_f64 name) ps).
Proof. exact help_iff. Qed.
Print Assumptions C64_help.

Lemma line_inj ps : forall ps', line ps = line ps' -> ps = ps'.
Proof.
  induction ps as [|[f v] ps IH]; intros [|[f' v'] ps'] H; try discriminate; [reflexivity|]. injection H as <- <- H. now rewrite (IH _ H).
Qed.
Lemma known_perm pf name ps ps' : Permutation ps ps' -> Forall (Known pf name) ps -> Forall (Known pf name) ps'.
Proof. intros HP HF. eapply Permutation_Forall; eassumption. Qed.
(** Only the order of the values of one option matters. *)
Theorem C64_order : forall parse_f64 name ps ps', Permutation ps ps' ->
  (forall os names t, In (name, os) manual -> In (names, t) os -> given names ps = given names ps') ->
  forall c, parse_args parse_f64 (B name :: line ps) = PCommand c <-> parse_args parse_f64 (B name :: line ps') = PCommand c.
Proof.
  intros pf name. assert (HX : forall ps ps', Permutation ps ps' -> (forall os names t, In (name, os) manual -> In (names, t) os -> given names ps = given names ps') ->
    forall c, parse_args pf (B name :: line ps) = PCommand c -> parse_args pf (B name :: line ps') = PCommand c).
  { intros ps ps' HP HG c H. apply parse_iff in H as (ps0 & E & (os & Hos & HK & HF)). injection E as E0 E. apply B_inj in E0. apply line_inj in E as <-. subst name.
    apply parse_iff. exists ps'. split; [reflexivity|]. exists os. split; [exact Hos|]. split; [eapply known_perm; eassumption|].
    assert (HI : forall o, In o os -> given (fst o) ps = given (fst o) ps') by (intros [names t] Ho; eapply HG; eassumption).
    clear - HF HI. induction HF as [|o s os ss [H1 H2] _ IH]; constructor; [|apply IH; intros; apply HI; now right]. split; [exact H1|]. rewrite <- (HI o (or_introl eq_refl)). exact H2. }
  intros ps ps' HP HG c. split; apply HX; auto; [now apply Permutation_sym|]. intros os names t H1 H2. symmetry. eauto.
Qed.
Print Assumptions C64_order.

(** Options that must be given once, and that may be given once. *)
Definition once : list (string * list string) :=
  [("generate", ["-v"; "--vocab-size"]); ("generate", ["-o"; "--output"]);
   ("prune", ["-i"; "--input"]); ("prune", ["-o"; "--output"]); ("prune", ["-v"; "--vocab-size"]);
   ("filter", ["-i"; "--input"]); ("filter", ["-o"; "--output"]);
   ("merge", ["-i"; "--input"]); ("merge", ["-o"; "--output"]); ("merge", ["--allow"]);
   ("mine", ["-n"; "--num-idioms"]); ("mine", ["-o"; "--output"]); ("encode", ["-v"; "--vocab"]); ("decode", ["-v"; "--vocab"])].
Definition any_number : list (string * list string) :=
  [("generate", ["--processor"]); ("generate", ["--train"]); ("generate", ["--special"]); ("generate", ["--suggested"]); ("generate", ["--added"]);
   ("prune", ["--train"]); ("merge", ["--train"]); ("regex", ["-p"; "--pattern"]); ("mine", ["--train"]); ("mine", ["-p"; "--pattern"])].

Lemma required_some {A} (l : list A) : length l = 1 -> exists a, required l = Some a.
Proof. destruct l as [|a [|b l]]; intros H; try discriminate H. exists a. reflexivity. Qed.
Lemma optional_some {A} (l : list A) : length l <= 1 -> exists a, optional l = Some a.
Proof. destruct l as [|a [|b l]]; intros H; [exists None; reflexivity|exists (Some a); reflexivity|]. cbn [List.length] in H. lia. Qed.
Lemma flat_typed {A} (f : val -> list A) t l : (forall v, typed t v -> length (f v) = 1) -> Forall (typed t) l -> length (flat_map f l) = length l.
Proof. intros Hf. induction 1 as [|v l Hv _ IH]; [reflexivity|]. cbn [flat_map]. rewrite app_length, (Hf v Hv), IH. reflexivity. Qed.
Lemma F2_length {A C} (P : A -> C -> Prop) l l' : Forall2 P l l' -> length l = length l'.
Proof. induction 1; cbn; congruence. Qed.
Lemma F2_in {A C} (P : A -> C -> Prop) l l' a : Forall2 P l l' -> In a l -> exists c, In c l' /\ P a c.
Proof. induction 1 as [|a' c l l' H _ IH]; [intros []|]. intros [->|Hin]; [exists c; split; [now left|exact H]|]. destruct (IH Hin) as (c' & H1 & H2). exists c'. split; [now right|exact H2]. Qed.

(** A line is accepted exactly if its options are known, their values can be read, no option is missing and none is given too often. *)
Theorem C64_accepted : forall parse_f64 name ps, In name (map fst manual) ->
  (exists c, parse_args parse_f64 (B name :: line ps) = PCommand c) <->
  Forall (Known parse_f64 name) ps /\
  forall os names t, In (name, os) manual -> In (names, t) os ->
    (In (name, names) once -> length (given names ps) = 1) /\ (~ In (name, names) any_number -> length (given names ps) <= 1).
Proof.
  intros pf name ps Hname. split.
  - intros [c H]. apply parse_iff in H as (ps0 & E & (os & Hos & HK & HF)). injection E as E0 E. apply B_inj in E0. apply line_inj in E as <-. subst name. split; [exact HK|].
    intros os' names t Hos' Ho. rewrite name_cmd in *. apply manual_opts in Hos, Hos'. subst os os'.
    assert (HL : Forall2 (fun (o : opt) (s : string * list val) => length (given (fst o) ps) = length (snd s)) (opts (cmd_of c)) (settings c)).
    { clear - HF. induction HF as [|o s os ss [_ H] _ IH]; constructor; [|exact IH]. exact (F2_length H). }
    assert (HR : Forall2 (fun (o : opt) (s : string * list val) => (In (cname (cmd_of c), fst o) once -> length (snd s) = 1) /\ (~ In (cname (cmd_of c), fst o) any_number -> length (snd s) <= 1)) (opts (cmd_of c)) (settings c)).
    { clear. destruct c as [[]|[]|[]|[]|[]|[]|[]|[]]; cbn [cmd_of cname settings]; unfold opts, manual; cbn [cname find fst snd String.eqb Ascii.eqb Bool.eqb];
        repeat (constructor; [cbn [fst snd]; split; [intros H; first [reflexivity|exfalso; unfold once in H; cbn [In] in H; repeat (destruct H as [H|H]; [discriminate H|]); exact H]
                                                    |intros H; first [cbn; lia|match goal with |- length (perhaps _ ?o) <= 1 => destruct o; cbn; lia end|exfalso; apply H; unfold any_number; cbn [In]; repeat (first [left; reflexivity|right])]]|]); constructor. }
    assert (HX : Forall2 (fun (o : opt) (s : string * list val) => (In (cname (cmd_of c), fst o) once -> length (given (fst o) ps) = 1) /\ (~ In (cname (cmd_of c), fst o) any_number -> length (given (fst o) ps) <= 1)) (opts (cmd_of c)) (settings c)).
    { clear - HL HR. induction HR as [|o s os ss H _ IH]; inversion HL; subst; constructor; auto. congruence. }
    destruct (F2_in (names, t) HX Ho) as (s & _ & H). exact H.
  - intros [HK HC]. assert (HN : exists c, name = cname c).
    { cbn [map fst manual In] in Hname. repeat (destruct Hname as [<-|Hname]; [first [exists CGenerate; reflexivity|exists CPrune; reflexivity|exists CFilter; reflexivity|exists CMerge; reflexivity|exists CRegex; reflexivity|exists CMine; reflexivity|exists CEncode; reflexivity|exists CDecode; reflexivity]|]). contradiction. }
    destruct HN as [c ->]. assert (HK' := HK). apply Known_reads in HK' as [gs HR].
    assert (HT := reads_typed HR).
    assert (HL : forall names long t onames, In (names, B long, t) (flags_of c) -> In (onames, t) (opts c) -> same_option (names, B long, t) (onames, t) ->
      Forall (typed t) (vals long gs) /\ (In (cname c, onames) once -> length (vals long gs) = 1) /\ (~ In (cname c, onames) any_number -> length (vals long gs) <= 1)).
    { intros names long t onames H1 H2 H3. split; [eapply HT; exact H1|]. rewrite <- (F2_length (@reads_values pf c names long t onames ps gs H1 H3 HR)). apply (HC (opts c) onames t); [now apply manual_opts|exact H2]. }
    assert (HF : exists x, finish c gs = Some x).
    { assert (L1s : forall long, Forall (typed TString) (vals long gs) -> length (vals long gs) = 1 -> exists a, required (strings (vals long gs)) = Some a) by (intros long H1 H2; apply required_some; unfold strings; rewrite flat_typed with (t := TString); auto; intros [] ?; try contradiction; reflexivity).
      assert (L1u : forall long, Forall (typed TUsize) (vals long gs) -> length (vals long gs) = 1 -> exists a, required (usizes (vals long gs)) = Some a) by (intros long H1 H2; apply required_some; unfold usizes; rewrite flat_typed with (t := TUsize); auto; intros [] ?; try contradiction; reflexivity).
      assert (L2s : forall long, Forall (typed TString) (vals long gs) -> length (vals long gs) <= 1 -> exists a, optional (strings (vals long gs)) = Some a) by (intros long H1 H2; apply optional_some; unfold strings; rewrite flat_typed with (t := TString); auto; intros [] ?; try contradiction; reflexivity).
      assert (L2u : forall long, Forall (typed TUsize) (vals long gs) -> length (vals long gs) <= 1 -> exists a, optional (usizes (vals long gs)) = Some a) by (intros long H1 H2; apply optional_some; unfold usizes; rewrite flat_typed with (t := TUsize); auto; intros [] ?; try contradiction; reflexivity).
      assert (L2f : forall long, Forall (typed TF64) (vals long gs) -> length (vals long gs) <= 1 -> exists a, optional (f64s (vals long gs)) = Some a) by (intros long H1 H2; apply optional_some; unfold f64s; rewrite flat_typed with (t := TF64); auto; intros [] ?; try contradiction; reflexivity).
      assert (L2b : forall long, Forall (typed TBool) (vals long gs) -> length (vals long gs) <= 1 -> exists a, optional (bools (vals long gs)) = Some a) by (intros long H1 H2; apply optional_some; unfold bools; rewrite flat_typed with (t := TBool); auto; intros [] ?; try contradiction; reflexivity).
      assert (HA : Forall2 (fun fl o => Forall (typed (snd fl)) (map snd (filter (fun g => bytes_eqb (fst g) (snd (fst fl))) gs)) /\ (In (cname c, fst o) once -> length (map snd (filter (fun g => bytes_eqb (fst g) (snd (fst fl))) gs)) = 1) /\
                                               (~ In (cname c, fst o) any_number -> length (map snd (filter (fun g => bytes_eqb (fst g) (snd (fst fl))) gs)) <= 1)) (flags_of c) (opts c)).
      { assert (HTB := tables c). assert (HI1 : forall fl, In fl (flags_of c) -> In fl (flags_of c)) by auto. assert (HI2 : forall o, In o (opts c) -> In o (opts c)) by auto.
        revert HI1 HI2. revert HTB. generalize (flags_of c) at 1 2 4 as fls. generalize (opts c) at 1 2 4 as os. intros os fls HTB. induction HTB as [|fl o fls os Ho _ IH]; intros HI1 HI2; constructor; [|apply IH; intros; [apply HI1|apply HI2]; now right].
        destruct fl as [[names long] t], o as [onames t']. assert (Et := proj1 Ho). cbn [fst snd] in Et. subst t'. assert (HM := proj2 (proj2 Ho)). cbn [fst snd] in HM. apply in_map_iff in HM as (l & El & _).
        subst long. apply (HL names l t onames); [apply HI1; now left|apply HI2; now left|exact Ho]. }
      destruct c; cbv [opts manual find cname String.eqb Ascii.eqb fst snd Bool.eqb] in HA; cbn [flags_of] in HA; unfold flag in HA;
        repeat match goal with H : Forall2 _ (_ :: _) (_ :: _) |- _ => let H1 := fresh in let H2 := fresh in inversion H as [|? ? ? ? H1 H2]; subst; clear H end;
        repeat match goal with H : Forall (typed _) _ /\ (In _ once -> _) /\ (~ In _ any_number -> _) |- _ =>
          let T := fresh in let C1 := fresh in let C2 := fresh in destruct H as (T & C1 & C2); cbn [fst snd] in T, C1, C2;
          first [assert (C1 := C1 ltac:(unfold once; cbn [In]; repeat (first [left; reflexivity|right]))) |clear C1];
          first [assert (C2 := C2 ltac:(intros HX; unfold any_number in HX; cbn [In] in HX; repeat (destruct HX as [HX|HX]; [discriminate HX|]); exact HX)) |clear C2] end.
      all: cbn [finish]. 
      all: repeat match goal with |- exists x, obind ?e _ = Some x => let a := fresh in let E := fresh in assert (E : exists a, e = Some a) by (first [apply L1s|apply L1u|apply L2s|apply L2u|apply L2f|apply L2b]; assumption); destruct E as [a E]; rewrite E; cbn [obind] end.
      all: eexists; reflexivity. }
    destruct HF as [x HF]. exists x. unfold parse_args. assert (Ef : is_flag (B (cname c)) = false) by (destruct c; reflexivity). rewrite Ef.
    assert (E : cmd_named (B (cname c)) = Some c) by (now apply cmd_named_iff). rewrite E. apply parse_flags_iff. exists ps, gs. auto.
Qed.
Print Assumptions C64_accepted.
