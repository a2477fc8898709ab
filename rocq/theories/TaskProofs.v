(** Facts about the progress counters. *)
From Verif Require Import Base BaseProofs Sort Par ParProofs.
Set Implicit Arguments.

Definition op_samples (o : task_op) : nat := match o with AddSamples n => n | _ => 0 end.
Definition op_bytes (o : task_op) : nat := match o with AddBytes n => n | _ => 0 end.
Definition pending (f : task_op -> nat) (ws : list (list task_op)) : nat := list_sum (map f (concat ws)).

Lemma list_sum_app' l1 l2 : list_sum (l1 ++ l2) = list_sum l1 + list_sum l2.
Proof. apply list_sum_app. Qed.
Lemma pending_pop f ws1 o w ws2 : pending f (ws1 ++ (o :: w) :: ws2) = f o + pending f (ws1 ++ w :: ws2).
Proof. unfold pending. rewrite !concat_app, !map_app, !list_sum_app'. cbn [concat]. rewrite !map_app, !list_sum_app'. simpl. lia. Qed.
Lemma pending_done f ws : Forall (eq []) ws -> pending f ws = 0.
Proof. unfold pending. induction 1 as [|w ws <- _ IH]; [reflexivity|exact IH]. Qed.
Lemma pending_init f chs : pending f (map (fun ch => local_finish (length ch) (list_sum ch)) chs) =
  list_sum (map (fun ch => f (AddSamples (length ch)) + f (AddBytes (list_sum ch))) chs).
Proof. unfold pending. induction chs as [|ch chs IH]; [reflexivity|]. simpl in *. rewrite IH. lia. Qed.

Section Run.
  Variable chs : list (list nat).
  Let n := length (concat chs).
  Let total := list_sum (concat chs).

  Definition task_inv (t : task_state) : Prop :=
    ts_samples t + pending op_samples (ts_workers t) = n /\
    ts_bytes t + pending op_bytes (ts_workers t) = total /\
    (ts_finished t = true -> Forall (eq []) (ts_workers t)) /\
    match ts_monitor t with
    | AtTop | AtCounters => True
    | AtExit => ts_samples t = n
    | Stopped b => ts_samples t = n /\ b <= ts_bytes t
    end.

  Lemma task_inv_init c : task_inv (task_init chs c).
  Proof.
    unfold task_inv, task_init. cbn [ts_samples ts_bytes ts_workers ts_finished ts_monitor]. rewrite !pending_init. repeat split; try discriminate.
    - subst n. clear. induction chs as [|ch l IH]; [reflexivity|]. simpl in *. rewrite app_length. lia.
    - subst total. clear. induction chs as [|ch l IH]; [reflexivity|]. simpl in *. rewrite list_sum_app'. lia.
  Qed.

  Lemma Forall_nil_pop {A} ws1 (o : A) w ws2 : ~ Forall (eq []) (ws1 ++ (o :: w) :: ws2).
  Proof. intros H. apply Forall_app in H as [_ H]. inversion H. discriminate. Qed.

  Lemma task_inv_step t t' : task_inv t -> task_step n t t' -> task_inv t'.
  Proof.
    intros (H1 & H2 & H3 & H4) Hstep. destruct Hstep; unfold task_inv; cbn [ts_samples ts_bytes ts_workers ts_finished ts_monitor] in *.
    - rewrite pending_pop in H1, H2. simpl in H1, H2. repeat split; try lia.
      + intros E. apply H3 in E. now apply Forall_nil_pop in E.
      + destruct m; lia.
    - rewrite pending_pop in H1, H2. simpl in H1, H2. repeat split; try lia.
      + intros E. apply H3 in E. now apply Forall_nil_pop in E.
      + destruct m; lia.
    - repeat split; auto.
    - repeat split; auto. destruct f; [|exact I]. rewrite (pending_done _ (H3 eq_refl)) in H1. lia.
    - repeat split; auto. destruct (Nat.leb_spec n s); [lia|exact I].
    - repeat split; auto.
  Qed.

  Lemma task_inv_steps t t' : task_inv t -> task_steps n t t' -> task_inv t'.
  Proof. intros H. induction 1; [assumption|]. apply IHtask_steps. eapply task_inv_step; eassumption. Qed.

  Lemma task_reachable c t : task_steps n (task_init chs c) t -> task_inv t.
  Proof. apply task_inv_steps, task_inv_init. Qed.
End Run.
