(** C78: keyword arguments of the Python class. *)
From Coq Require Import Permutation.
From Coq.Strings Require Import String.
From Verif Require Import Base BaseProofs F64 Utf8 SpecUtf8 SpecJson Model Processor Tokenizer Serde Py PyKw SpecPyKw.
Set Implicit Arguments.
Local Open Scope list_scope.
Local Notation length := List.length.
Local Ltac splits := repeat match goal with |- _ /\ _ => split end.

(** ** Binding *)
(** The empty slots and their names. *)
Fixpoint open_names (names : list bytes) (s : slots) : list bytes :=
  match names, s with
  | name :: names', None :: s' => name :: open_names names' s'
  | _ :: names', Some _ :: s' => open_names names' s'
  | _, _ => []
  end.
(** The slots filled up with values for the empty ones. *)
Fixpoint fill (s : slots) (given : list py) : list py :=
  match s, given with
  | Some v :: s', _ => v :: fill s' given
  | None :: s', v :: given' => v :: fill s' given'
  | _, _ => []
  end.
Lemma place_spec names : forall pos, place names pos = if length pos <=? length names then Some (map Some pos ++ map (fun _ => None) (skipn (length pos) names)) else None.
Proof.
  induction names as [|n names IH]; intros [|v pos]; cbn [place]; try reflexivity. rewrite IH. cbn [length Nat.leb]. destruct (length pos <=? length names); reflexivity.
Qed.
Lemma open_place pos : forall names, length pos <= length names -> open_names names (map Some pos ++ map (fun _ => None) (skipn (length pos) names)) = skipn (length pos) names.
Proof.
  induction pos as [|v pos IH]; intros names Hl.
  - cbn [length skipn map app]. induction names as [|n names IHn]; [reflexivity|]. cbn [map open_names]. f_equal. apply IHn. simpl. lia.
  - destruct names as [|n names]; [simpl in Hl; lia|]. cbn [length skipn map app open_names]. apply IH. simpl in Hl. lia.
Qed.
Lemma fill_place pos : forall (names : list bytes) given, length given = length names -> fill (map Some pos ++ map (fun _ => None) names) given = pos ++ given.
Proof.
  induction pos as [|v pos IH]; intros names given Hl.
  - cbn [map app]. revert given Hl. induction names as [|n names IHn]; intros [|g given] Hl; try discriminate; [reflexivity|]. cbn [map fill]. f_equal. apply IHn. now injection Hl.
  - cbn [map app fill]. f_equal. now apply IH.
Qed.
Lemma filled_spec names : forall s, length s = length names -> forall args, filled s = Some args <-> open_names names s = [] /\ args = fill s [].
Proof.
  induction names as [|n names IH]; intros [|[v|] s] Hl args; try discriminate; cbn [filled open_names fill].
  - split; [intros H; injection H as <-; auto|intros [_ ->]; reflexivity].
  - injection Hl as Hl. specialize (IH s Hl). destruct (filled s) as [l|] eqn:E; cbn [option_map].
    + destruct (proj1 (IH l) eq_refl) as [H1 ->]. split; [intros H; injection H as <-; auto|intros [_ ->]; reflexivity].
    + split; [discriminate|]. intros [H ->]. destruct (IH (fill s [])) as [_ H2]. specialize (H2 (conj H eq_refl)). discriminate.
  - split; [discriminate|intros [H _]; discriminate].
Qed.
(** A keyword takes its name out of the open ones. *)
Lemma put_spec k v : forall names s, NoDup names -> length s = length names ->
  match put names s k v with
  | Some s' => exists l r, open_names names s = l ++ k :: r /\ open_names names s' = l ++ r /\ length s' = length names /\
      forall g1 g2, length g1 = length l -> fill s' (g1 ++ g2) = fill s (g1 ++ v :: g2)
  | None => ~ In k (open_names names s)
  end.
Proof.
  induction names as [|n names IH]; intros [|slot s] ND Hl; try discriminate; cbn [put open_names]; [intros []|]. injection Hl as Hl. inversion ND as [|? ? Hn ND']; subst. specialize (IH s ND' Hl).
  assert (Hin : forall x, In x (open_names names s) -> In x names).
  { clear. revert s. induction names as [|n names IHn]; intros [|[o|] s] x; cbn [open_names]; try (intros []; fail); [intros H; right; eauto|intros [-> |H]; [now left|right; eauto]]. }
  destruct (bytes_eqb n k) eqn:E.
  - apply bytes_eqb_eq in E. subst k. destruct slot as [o|]; [intros H; apply Hn; auto|]. exists [], (open_names names s). splits; [reflexivity|reflexivity|cbn; lia|]. intros [|? ?] g2 Hg; [reflexivity|discriminate].
  - assert (Hnk : n <> k) by (intros ->; rewrite (proj2 (bytes_eqb_eq k k) eq_refl) in E; discriminate).
    destruct (put names s k v) as [s'|]; cbn [option_map].
    + destruct IH as (l & r & E1 & E2 & E3 & E4). destruct slot as [o|].
      * exists l, r. splits; auto; [cbn; lia|]. intros g1 g2 Hg. cbn [fill]. f_equal. now apply E4.
      * exists (n :: l), r. splits; [now rewrite E1|cbn [open_names]; now rewrite E2|cbn; lia|]. intros [|g g1] g2 Hg; [discriminate|]. injection Hg as Hg. cbn [app fill]. f_equal. now apply E4.
    + destruct slot as [o|]; [exact IH|]. intros [H|H]; [congruence|contradiction].
Qed.
Lemma open_nodup names : forall s, NoDup names -> NoDup (open_names names s).
Proof.
  induction names as [|n names IH]; intros [|[o|] s] ND; cbn [open_names]; try constructor; inversion ND as [|? ? Hn ND']; subst; auto.
  intros H. apply Hn. clear -H. revert s H. induction names as [|m names IHn]; intros [|[o|] s]; cbn [open_names]; try (intros []; fail); [intros H; right; eauto|intros [-> |H]; [now left|right; eauto]].
Qed.
Lemma combine_split_mid (l r : list bytes) k : forall g : list py, length g = length (l ++ k :: r) -> exists g1 v g2, g = g1 ++ v :: g2 /\ length g1 = length l /\ length g2 = length r /\
  combine (l ++ k :: r) g = combine l g1 ++ (k, v) :: combine r g2.
Proof.
  induction l as [|a l IH]; intros [|x g] Hl; try discriminate; cbn [app length] in Hl; injection Hl as Hl.
  - exists [], x, g. splits; auto.
  - destruct (IH g Hl) as (g1 & v & g2 & -> & H1 & H2 & H3). exists (x :: g1), v, g2. splits; [reflexivity|cbn; lia|exact H2|]. cbn [app combine]. now rewrite H3.
Qed.
Lemma combine_app_eq {A T} (l r : list A) (g1 g2 : list T) : length g1 = length l -> combine (l ++ r) (g1 ++ g2) = combine l g1 ++ combine r g2.
Proof. revert g1. induction l as [|a l IH]; intros [|x g1] Hl; try discriminate; [reflexivity|]. cbn [app combine]. f_equal. apply IH. now injection Hl. Qed.
Lemma put_all_spec names (ND : NoDup names) : forall kw s, length s = length names ->
  forall args, (exists s', put_all names s kw = Some s' /\ filled s' = Some args) <->
    exists given, length given = length (open_names names s) /\ Permutation kw (combine (open_names names s) given) /\ args = fill s given.
Proof.
  induction kw as [|[k v] kw IH]; intros s Hl args; cbn [put_all].
  - split.
    + intros (s' & E & H). injection E as <-. apply (filled_spec names s Hl) in H as [H ->]. exists []. rewrite H. auto.
    + intros (given & Hg & HP & ->). exists s. split; [reflexivity|]. apply (filled_spec names s Hl). apply Permutation_nil in HP. destruct (open_names names s) as [|n l]; destruct given; try discriminate; auto.
  - assert (Hp := put_spec k v s ND Hl). destruct (put names s k v) as [s1|].
    + destruct Hp as (l & r & E1 & E2 & E3 & E4). rewrite (IH s1 E3 args), E1, E2. split.
      * intros (given & Hg & HP & ->). rewrite app_length in Hg. assert (Eg : given = firstn (length l) given ++ skipn (length l) given) by (symmetry; apply firstn_skipn).
        assert (L1 : length (firstn (length l) given) = length l) by (rewrite firstn_length; lia). assert (L2 : length (skipn (length l) given) = length r) by (rewrite skipn_length; lia).
        set (g1 := firstn (length l) given) in *. set (g2 := skipn (length l) given) in *. clearbody g1 g2. subst given. exists (g1 ++ v :: g2). splits.
        -- rewrite !app_length. cbn [length]. lia.
        -- rewrite combine_app_eq in * by exact L1. cbn [combine]. rewrite HP. apply Permutation_middle.
        -- now apply E4.
      * intros (given & Hg & HP & ->). destruct (@combine_split_mid l r k given Hg) as (g1 & v' & g2 & -> & L1 & L2 & Ec). rewrite Ec in HP.
        assert (Ev : v' = v).
        { assert (Hin : In (k, v) (combine l g1 ++ (k, v') :: combine r g2)) by (eapply Permutation_in; [exact HP|now left]).
          assert (NDo := open_nodup s ND). rewrite E1 in NDo. apply NoDup_remove_2 in NDo. apply in_app_iff in Hin as [Hin|[Hin|Hin]].
          - exfalso. apply NDo. apply in_or_app. left. eapply in_combine_l; eauto.
          - congruence.
          - exfalso. apply NDo. apply in_or_app. right. eapply in_combine_l; eauto. }
        subst v'. exists (g1 ++ g2). splits.
        -- rewrite !app_length. lia.
        -- rewrite combine_app_eq by exact L1. now apply Permutation_cons_app_inv in HP.
        -- symmetry. now apply E4.
    + split; [intros (s' & E & _); discriminate|]. intros (given & Hg & HP & _). exfalso. apply Hp.
      assert (Hin : In (k, v) (combine (open_names names s) given)) by (eapply Permutation_in; [exact HP|now left]). eapply in_combine_l; eauto.
Qed.
Lemma bind_spec names pos kw args : NoDup names -> bind_arguments names pos kw = Some args <-> Binds names pos kw args.
Proof.
  intros ND. unfold bind_arguments, Binds. rewrite place_spec. destruct (Nat.leb_spec (length pos) (length names)) as [Hle|Hgt].
  - set (s := map Some pos ++ map (fun _ => None) (skipn (length pos) names)). assert (Hs : length s = length names) by (unfold s; rewrite app_length, !map_length, skipn_length; lia).
    assert (H := put_all_spec ND kw s Hs args). assert (Eo : open_names names s = skipn (length pos) names) by now apply open_place. rewrite Eo in H.
    transitivity (exists s', put_all names s kw = Some s' /\ filled s' = Some args).
    { destruct (put_all names s kw) as [s'|]; split; [eauto|intros (x & E & Hx); injection E as <-; exact Hx|discriminate|intros (x & E & _); discriminate]. }
    rewrite H. split.
    + intros (given & Hg & HP & ->). exists given. unfold s. rewrite fill_place by exact Hg. splits; auto. rewrite app_length, Hg, skipn_length. lia.
    + intros (given & -> & Hlen & HP). exists given. rewrite app_length in Hlen. assert (Hg : length given = length (skipn (length pos) names)) by (rewrite skipn_length; lia). splits; auto. unfold s. now rewrite fill_place.
  - split; [discriminate|]. intros (given & -> & Hlen & _). rewrite app_length in Hlen. lia.
Qed.
Lemma parameters_differ m : NoDup (parameters m).
Proof. destruct m; cbn; repeat constructor; cbn; intuition discriminate. Qed.

(** ** C78 *)
Section Kw.
  Variable normalize : unicode_form -> bytes -> bytes.
  Variable fuel : nat.
  Variable rnd : nat -> nat -> nat -> f64.
  Variable sched : nat -> list nat.
  Variable fmt_num : f64 -> bytes.
  Variable num_val : bytes -> option f64.
  Variable write_to : files -> bytes -> bytes -> bool * option bytes.
  Let call := call normalize fuel rnd sched fmt_num num_val write_to.
  Let call_kw := call_kw normalize fuel rnd sched fmt_num num_val write_to.

  (** A call whose keywords fit is the call with all arguments by position; any other raises TypeError and changes nothing. *)
  Theorem C78_call : forall w m pos kw,
    (forall args, Binds (parameters m) pos kw args -> call_kw w m pos kw = call w m args) /\
    ((forall args, ~ Binds (parameters m) pos kw args) -> call_kw w m pos kw = (Raise TypeError, w)).
  Proof.
    intros w m pos kw. unfold call_kw, PyKw.call_kw. split.
    - intros args H. apply (bind_spec pos kw args (parameters_differ m)) in H. now rewrite H.
    - intros H. destruct (bind_arguments (parameters m) pos kw) as [args|] eqn:E; [|reflexivity]. exfalso. apply (H args). now apply (bind_spec pos kw args (parameters_differ m)).
  Qed.
  (** Without keywords nothing is new. *)
  Theorem C78_positional : forall w m args, call_kw w m args [] = call w m args.
  Proof.
    intros w m args. destruct (Nat.eq_dec (length args) (length (parameters m))) as [E|E].
    - apply C78_call. exists []. rewrite app_nil_r. splits; auto. now rewrite E, skipn_all.
    - transitivity (@Raise py TypeError, w).
      + apply C78_call. intros args' (given & -> & Hl & HP). rewrite app_length in Hl. apply Permutation_nil in HP.
        assert (Hlen := combine_length (skipn (length args) (parameters m)) given). rewrite HP, skipn_length in Hlen. simpl in Hlen. lia.
      + unfold call, Py.call, read. destruct m; cbn [parameters length] in E; (destruct args as [|a [|b [|c args]]]; cbn [length] in E; try lia; reflexivity).
  Qed.
  (** The order of the keywords has no effect, nor whether an argument is given by name. *)
  Theorem C78_order : forall w m pos kw kw', Permutation kw kw' -> call_kw w m pos kw = call_kw w m pos kw'.
  Proof.
    intros w m pos kw kw' HP. unfold call_kw, PyKw.call_kw. replace (bind_arguments (parameters m) pos kw') with (bind_arguments (parameters m) pos kw); [reflexivity|].
    destruct (bind_arguments (parameters m) pos kw) as [args|] eqn:E.
    - symmetry. apply (bind_spec pos kw' args (parameters_differ m)). apply (bind_spec pos kw args (parameters_differ m)) in E as (given & H1 & H2 & H3). exists given. splits; auto. now rewrite <- HP.
    - destruct (bind_arguments (parameters m) pos kw') as [args|] eqn:E2; [|reflexivity]. apply (bind_spec pos kw' args (parameters_differ m)) in E2 as (given & H1 & H2 & H3).
      rewrite <- E. apply (bind_spec pos kw args (parameters_differ m)). exists given. splits; auto. now rewrite HP.
  Qed.
  Theorem C78_by_name : forall w m args n, length args = length (parameters m) -> call_kw w m (firstn n args) (combine (skipn n (parameters m)) (skipn n args)) = call w m args.
  Proof.
    intros w m args n Hl. apply C78_call. exists (skipn n args). splits; [now rewrite firstn_skipn|exact Hl|]. rewrite firstn_length. destruct (Nat.le_ge_cases n (length args)) as [H|H].
    - now rewrite Nat.min_l.
    - rewrite Nat.min_r by exact H. rewrite !(skipn_all2 (n := n)) by lia. rewrite Hl, skipn_all. reflexivity.
  Qed.
  (** The names of the stub are those of the program, except that of [save]. *)
  Theorem C78_stub : forall m names, In (m, names) stub -> m <> save_ -> forall w args n, length args = length names ->
    call_kw w m (firstn n args) (combine (skipn n names) (skipn n args)) = call w m args.
  Proof.
    intros m names Hin Hs w args n Hl. assert (E : names = parameters m); [|subst names; now apply C78_by_name].
    cbn in Hin. repeat (destruct Hin as [Hin|Hin]; [injection Hin as <- <-; first [reflexivity|contradiction]|]). destruct Hin.
  Qed.
  (** By the name that the stub gives, neither [save] nor [from_str] can be called. *)
  Theorem C78_stub_save_refuted : exists name, In (save_, [name]) stub /\ forall w path, call_kw w save_ [] [(name, path)] = (Raise TypeError, w).
  Proof. exists (B "filepath"). split; [cbn; auto 30|]. intros w path. reflexivity. Qed.
  Theorem C78_stub_from_str_refuted : exists name, stub_from_str = [name] /\ forall v, from_str_kw num_val [] [(name, v)] = Raise TypeError.
  Proof. exists (B "s"). split; reflexivity. Qed.
  Theorem C78_load : forall fs v name, (from_str_kw num_val [] [(name, v)] = if bytes_eqb name (B "json") then py_from_str num_val [v] else Raise TypeError) /\
    (from_file_kw num_val fs [] [(name, v)] = if bytes_eqb name (B "filepath") then py_from_file num_val fs [v] else Raise TypeError) /\
    from_str_kw num_val [v] [] = py_from_str num_val [v] /\ from_file_kw num_val fs [v] [] = py_from_file num_val fs [v].
  Proof.
    intros fs v name. unfold from_str_kw, from_file_kw, bind_arguments, from_str_parameters, from_file_parameters. cbn [place map put_all put].
    assert (Hsym : forall a b, bytes_eqb a b = bytes_eqb b a).
    { intros a b. destruct (bytes_eqb a b) eqn:E; [apply bytes_eqb_eq in E; subst; symmetry; now apply bytes_eqb_eq|]. destruct (bytes_eqb b a) eqn:E2; [|reflexivity]. apply bytes_eqb_eq in E2. subst. rewrite (proj2 (bytes_eqb_eq a a) eq_refl) in E. discriminate. }
    rewrite (Hsym (B "json") name), (Hsym (B "filepath") name). splits; try reflexivity.
    - destruct (bytes_eqb name (B "json")); reflexivity.
    - destruct (bytes_eqb name (B "filepath")); reflexivity.
  Qed.
  (** A case: both arguments by name, in the other order. *)
  Example C78_example : Binds (parameters decode_) [] [(B "include_special_tokens", PyBool true); (B "ids", PyList [])] [PyList []; PyBool true] /\
    ~ exists args, Binds (parameters decode_) [PyList []] [(B "ids", PyList [])] args.
  Proof.
    split.
    - exists [PyList []; PyBool true]. splits; auto. cbn. apply perm_swap.
    - intros (args & H). apply (bind_spec _ _ args (parameters_differ decode_)) in H. discriminate.
  Qed.
End Kw.
Print Assumptions C78_call.
Print Assumptions C78_positional.
Print Assumptions C78_stub.
Print Assumptions C78_stub_save_refuted.
Print Assumptions C78_load.
