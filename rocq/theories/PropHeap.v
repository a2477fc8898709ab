(** Property C61: in which order the search for the best paths takes up its hypotheses. *)
From Coq Require Import Permutation Sorted.
From Verif Require Import Base F64 Trie Model BaseProofs F64Proofs Lattice Heap HeapProofs.
Set Implicit Arguments.
Local Open Scope nat_scope.
Local Ltac splits := repeat match goal with |- _ /\ _ => split end.

(** ** What is done with a priority queue: something is put in, or something is taken out. *)
Inductive act (T : Type) : Type := Put (x : T) | Take.
Arguments Take {T}.
(** The heap does it; the answers are those of [Take]. *)
Fixpoint acts {T} (less : T -> T -> bool) (data : list T) (l : list (act T)) : res (list (option T) * list T) :=
  match l with
  | [] => Ok ([], data)
  | Put x :: l' => data <- heap_push less data x ;; acts less data l'
  | Take :: l' =>
      r <- heap_pop less data ;;
      match r with
      | None => '(out, data) <- acts less data l' ;; Ok (None :: out, data)
      | Some (x, data) => '(out, data) <- acts less data l' ;; Ok (Some x :: out, data)
      end
  end.
(** The specification: a bag, from which some element is taken; [best x bag]: it may be [x]. *)
Inductive bag_acts {T} (best : T -> list T -> Prop) : list T -> list (act T) -> list (option T) -> list T -> Prop :=
| bag_end bag bag' : Permutation bag bag' -> bag_acts best bag [] [] bag'
| bag_put bag x l out bag' : bag_acts best (x :: bag) l out bag' -> bag_acts best bag (Put x :: l) out bag'
| bag_none l out bag' : bag_acts best [] l out bag' -> bag_acts best [] (Take :: l) (None :: out) bag'
| bag_take bag x rest l out bag' : Permutation bag (x :: rest) -> best x bag -> bag_acts best rest l out bag' -> bag_acts best bag (Take :: l) (Some x :: out) bag'.
Definition puts {T} (l : list (act T)) : list T := flat_map (fun a => match a with Put x => [x] | Take => [] end) l.

Lemma bag_acts_perm (T : Type) (best : T -> list T -> Prop) (Hb : forall x b b', Permutation b b' -> best x b -> best x b') l : forall (bag bag1 : list T) out bag',
  Permutation bag bag1 -> bag_acts best bag l out bag' -> bag_acts best bag1 l out bag'.
Proof.
  induction l as [|a l IH]; intros bag bag1 out bag' HP H; inversion H; subst; clear H.
  - constructor. now rewrite <- HP.
  - constructor. eapply IH; [|eassumption]. now constructor.
  - apply Permutation_nil in HP. subst. now constructor.
  - econstructor; [rewrite <- HP; eassumption|eapply Hb; eauto|assumption].
Qed.

(** It never fails, and it neither loses nor invents nor doubles an element, whatever the order is. *)
Theorem C61_bag : forall (T : Type) (less : T -> T -> bool) (l : list (act T)),
  exists out data, acts less [] l = Ok (out, data) /\ bag_acts (fun _ _ => True) [] l out data.
Proof.
  intros T less l. generalize (@nil T) as d. induction l as [|[x|] l IH]; intros d; simpl.
  - exists [], d. split; [reflexivity|]. now constructor.
  - destruct (push_spec less d x) as (d' & -> & HP & _). cbn [bind]. destruct (IH d') as (out & data & E & H). exists out, data. split; [exact E|].
    constructor. eapply bag_acts_perm; [auto|exact HP|exact H].
  - destruct (pop_spec less d) as [[-> ->]|(top & rest & d' & -> & -> & HP & _)]; cbn [bind].
    + destruct (IH []) as (out & data & -> & H). cbn [bind]. exists (None :: out), data. split; [reflexivity|]. now constructor.
    + destruct (IH d') as (out & data & -> & H). cbn [bind]. exists (Some top :: out), data. split; [reflexivity|].
      econstructor; [reflexivity|exact I|]. eapply bag_acts_perm; [auto|exact HP|exact H].
Qed.
Print Assumptions C61_bag.

(** If the elements put in can be ordered, every element taken is one that is not less than any in the queue. *)
Definition greatest {T} (less : T -> T -> bool) (x : T) (bag : list T) : Prop := forall y, In y bag -> less x y = false.
Theorem C61_best_first : forall (T : Type) (less : T -> T -> bool) (l : list (act T)), Ordered less (puts l) ->
  exists out data, acts less [] l = Ok (out, data) /\ bag_acts (greatest less) [] l out data.
Proof.
  intros T less l HO. assert (Hb : forall x b b', Permutation b b' -> greatest less x b -> greatest less x b').
  { intros x b b' HP H y Hy. apply H. eapply Permutation_in; [symmetry; exact HP|exact Hy]. }
  assert (G : forall d, Ordered less (d ++ puts l) -> heap less d -> exists out data, acts less d l = Ok (out, data) /\ bag_acts (greatest less) d l out data).
  2: { apply G; [exact HO|]. intros i _ p x _ E. destruct i; discriminate. }
  clear HO. induction l as [|[x|] l IH]; intros d HO Hh; simpl.
  - exists [], d. split; [reflexivity|]. now constructor.
  - destruct (push_spec less d x) as (d' & -> & HP & HH). cbn [bind]. simpl in HO. destruct (IH d') as (out & data & E & H).
    + eapply Ordered_perm; [|exact HO]. rewrite HP. simpl. symmetry. apply Permutation_middle.
    + apply HH; [|exact Hh]. eapply Ordered_incl; [|exact HO]. intros y [<-|Hy]; apply in_or_app; [right; now left|now left].
    + exists out, data. split; [exact E|]. constructor. eapply bag_acts_perm; [exact Hb|exact HP|exact H].
  - destruct (pop_spec less d) as [[-> ->]|(top & rest & d' & -> & -> & HP & HH)]; cbn [bind].
    + destruct (IH [] HO Hh) as (out & data & -> & H). cbn [bind]. exists (None :: out), data. split; [reflexivity|]. now constructor.
    + assert (HO1 : Ordered less (top :: rest)). { eapply Ordered_incl; [|exact HO]. intros y Hy. apply in_or_app. now left. }
      destruct (IH d') as (out & data & -> & H).
      * eapply Ordered_incl; [|exact HO]. intros y Hy. apply in_app_iff in Hy as [Hy|Hy]; apply in_or_app; [left; right; eapply Permutation_in; eauto|now right].
      * now apply HH.
      * cbn [bind]. exists (Some top :: out), data. split; [reflexivity|].
        econstructor; [reflexivity|intros y Hy; eapply heap_top; eauto|]. eapply bag_acts_perm; [exact Hb|exact HP|exact H].
Qed.
Print Assumptions C61_best_first.

(** So what is put in comes out sorted. *)
Lemma takes_sorted T less bag : forall out (rest : list T), @bag_acts T (greatest less) bag (repeat Take (length bag)) out rest ->
  rest = [] /\ exists l, out = map Some l /\ Permutation l bag /\ StronglySorted (fun x y => less x y = false) l.
Proof.
  remember (length bag) as k eqn:Ek. revert bag Ek. induction k as [|k IH]; intros bag Ek out rest H; simpl in H.
  - inversion H as [? ? HP| | |]; subst. destruct bag; [|discriminate]. apply Permutation_nil in HP. subst. split; [reflexivity|]. exists []. splits; auto. constructor.
  - inversion H as [| |? ? ? HB|? x rest0 ? out' ? HP HG HB]; subst; [discriminate|].
    assert (Hl := Permutation_length HP). simpl in Hl. destruct (IH rest0 ltac:(lia) _ _ HB) as (-> & l & -> & HP' & HS). split; [reflexivity|].
    exists (x :: l). splits; [reflexivity|rewrite HP; now constructor|]. constructor; [exact HS|]. apply Forall_forall. intros y Hy. apply HG.
    eapply Permutation_in; [symmetry; exact HP|]. right. eapply Permutation_in; eauto.
Qed.
Theorem C61_sorts : forall (T : Type) (less : T -> T -> bool) (xs : list T), Ordered less xs ->
  exists l, acts less [] (map (@Put T) xs ++ repeat Take (length xs)) = Ok (map Some l, []) /\ Permutation l xs /\ StronglySorted (fun x y => less x y = false) l.
Proof.
  intros T less xs HO.
  assert (Hp : puts (map (@Put T) xs ++ repeat Take (length xs)) = xs).
  { unfold puts. rewrite flat_map_app. replace (flat_map _ (repeat Take (length xs))) with (@nil T) by (induction (length xs); simpl; auto).
    rewrite app_nil_r. induction xs as [|x xs IH]; simpl; [reflexivity|]. f_equal. apply IH. eapply Ordered_incl; [|exact HO]. now right. }
  destruct (@C61_best_first T less (map (@Put T) xs ++ repeat Take (length xs))) as (out & data & E & H); [now rewrite Hp|].
  assert (G : forall ys bag l, bag_acts (greatest less) bag (map (@Put T) ys ++ l) out data -> bag_acts (greatest less) (rev ys ++ bag) l out data).
  { induction ys as [|y ys IH]; intros bag l Hy; simpl in *; [exact Hy|]. inversion Hy as [|? ? ? ? ? HB| |]; subst. apply IH in HB. now rewrite <- app_assoc. }
  apply G in H. rewrite app_nil_r in H. rewrite <- (rev_length xs) in H at 1. apply takes_sorted in H as (-> & l & -> & HP & HS).
  exists l. splits; auto. rewrite HP. symmetry. apply Permutation_rev.
Qed.
Print Assumptions C61_sorts.

(** Hypotheses with scores that are numbers can be ordered; so the search takes up one with the highest score. *)
Theorem C61_hypotheses : forall exp ln hs, Forall (fun h => f_is_nan (h_fx h) = false) hs -> Ordered (hyp_less (f64_arith exp ln)) hs.
Proof.
  intros exp ln hs H. rewrite Forall_forall in H. split; unfold hyp_less; simpl.
  - intros x y Hx Hy E. rewrite fltb_fleb by auto. now rewrite (fltb_fleb_weak _ _ E).
  - intros x y z Hx Hy Hz E1 E2. rewrite fltb_fleb in * by auto. apply negb_false_iff in E1, E2. apply negb_false_iff. exact (fleb_trans _ _ _ E2 E1).
Qed.
Print Assumptions C61_hypotheses.

(** Of a score that is not a number this is false: of the scores 2, NaN and 1 the queue gives 1 first, and the disorder outlasts
    the NaN: of 4, NaN, 1, 5, 2 and 3 it gives 5 and NaN, and then 3 before 4. *)
Definition z (n : nat) : @hypothesis f64 := Hyp n [] (f64_of_Z (Z.of_nat n)) f0.
Definition nan : @hypothesis f64 := Hyp 0 [] fnan f0.
Definition some_less := hyp_less (f64_arith (fun x => x) (fun x => x)).
(** The hypotheses taken, given by their nodes. *)
Definition taken (l : list (act (@hypothesis f64))) : res (list (option nat)) :=
  '(out, _) <- acts some_less [] l ;; Ok (map (option_map (@h_node f64)) out).
Theorem C61_nan_refuted :
  ~ (forall exp ln l, exists out data, acts (hyp_less (f64_arith exp ln)) [] l = Ok (out, data) /\ bag_acts (greatest (hyp_less (f64_arith exp ln))) [] l out data) /\
  taken (map (@Put _) [z 4; nan; z 1; z 5; z 2; z 3] ++ [Take; Take; Take; Take]) = Ok [Some 5; Some 0; Some 3; Some 4].
Proof.
  split; [|vm_compute; reflexivity].
  intros H. destruct (H (fun x => x) (fun x => x) [Put (z 2); Put nan; Put (z 1); Take]) as (out & data & E & B).
  assert (T : taken [Put (z 2); Put nan; Put (z 1); Take] = Ok [Some 1]) by (vm_compute; reflexivity). unfold taken, some_less in T. rewrite E in T. cbn [bind] in T.
  inversion B as [|? ? ? ? ? B1| |]; subst. clear B. inversion B1 as [|? ? ? ? ? B2| |]; subst. clear B1. inversion B2 as [|? ? ? ? ? B3| |]; subst. clear B2.
  inversion B3 as [| | |? x rest ? out' ? HP HG HB]; subst. inversion HB; subst. cbn [map option_map] in T. injection T as T.
  assert (Hx : In x [z 1; nan; z 2]) by (eapply Permutation_in; [symmetry; exact HP|now left]). destruct Hx as [<-|[<-|[<-|[]]]]; try discriminate T.
  assert (HL : hyp_less (f64_arith (fun x => x) (fun x => x)) (z 1) (z 2) = true) by (vm_compute; reflexivity).
  rewrite (HG (z 2)) in HL; [discriminate|]. right. right. now left.
Qed.
Print Assumptions C61_nan_refuted.

Example C61_example :
  Ordered some_less (puts [Put (z 4); Take; Take; Put (z 1); Put (z 5); Put (z 3); Take; Put (z 4); Take]) /\
  taken [Put (z 4); Take; Take; Put (z 1); Put (z 5); Put (z 3); Take; Put (z 4); Take] = Ok [Some 4; None; Some 5; Some 4].
Proof. split; [apply C61_hypotheses; repeat constructor|vm_compute; reflexivity]. Qed.
