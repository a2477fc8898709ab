(** What dropout does (src/model.rs:92-109). *)
From Coq Require Import Sorted.
From Verif Require Import Base F64 Model SpecModel SpecDropout DropoutProofs PropModel.
Set Implicit Arguments.

(** ** C52 *)
(** Each run has exactly one list of occurrences that get a random number ... *)
Theorem C52_draws : forall vocab rnd s dropout,
  fits vocab -> fleb dropout f0 = false ->
  exists drawn, draws_for vocab s rnd dropout drawn /\
    forall drawn', draws_for vocab s rnd dropout drawn' -> drawn' = drawn.
Proof.
  intros vocab rnd s dropout Hf Hd. destruct (encode_draws rnd dropout Hd Hf s) as (drawn & H & _).
  exists drawn. split; [exact H|]. intros drawn' H'. eapply draws_unique; eassumption.
Qed.
Print Assumptions C52_draws.

(** ... and the result of encoding is a best cut among those that use only
    what these numbers leave, or an error if they leave none. *)
Theorem C52_dropout : forall vocab rnd s dropout drawn,
  fits vocab -> fleb dropout f0 = false -> draws_for vocab s rnd dropout drawn ->
  let keep := kept rnd dropout drawn in
  (encode (model_from vocab) rnd s dropout = Err (NoPath (length s) (length s)) /\
   forall ids, ~ CutKept vocab keep 0 ids s) \/
  exists ids, encode (model_from vocab) rnd s dropout = Ok ids /\ CutKept vocab keep 0 ids s /\
   (finite_scores vocab -> forall ids', CutKept vocab keep 0 ids' s ->
      fleb (score_of vocab ids') (score_of vocab ids) = true).
Proof.
  intros vocab rnd s dropout drawn Hf Hd H. cbv zeta. destruct (encode_draws rnd dropout Hd Hf s) as (drawn' & H' & HE).
  rewrite (draws_unique H H'). destruct HE as [[H1 H2]|HE]; [left|right; exact HE].
  split; [exact H2|]. intros ids HC. apply H1. eauto.
Qed.
Print Assumptions C52_dropout.

(** "abab": the first "ab" is dropped by the first number, the second is kept by the second. *)
Definition ex_rnd (k : nat) : f64 := match k with 1 => f1 | _ => f0 end.
Example C52_example :
  encode (model_from ex_vocab) ex_rnd [x61; x62; x61; x62] fhalf = Ok [5; 1; 2]%N /\
  draws_for ex_vocab [x61; x62; x61; x62] ex_rnd fhalf [(0, 2); (2, 2)] /\
  fleb fhalf f0 = false.
Proof.
  split; [vm_compute; reflexivity|]. split; [|vm_compute; reflexivity].
  assert (Hk1 : kept ex_rnd fhalf [(0, 2); (2, 2)] 0 1) by now left.
  assert (Hk2 : kept ex_rnd fhalf [(0, 2); (2, 2)] 1 1) by now left.
  assert (La : latest ex_vocab 5 (ST [x61] (f64_of_Z (-1)) false)).
  { split; [reflexivity|]. intros id' t' Hlt Ht. unfold token_at in Ht. 
    assert (Hid : N.to_nat id' = 6 \/ 7 <= N.to_nat id') by lia.
    destruct Hid as [Hid|Hid].
    - rewrite Hid in Ht. injection Ht as <-. discriminate.
    - rewrite (proj2 (nth_error_None ex_vocab (N.to_nat id'))) in Ht; [discriminate|exact Hid]. }
  assert (Lb : latest ex_vocab 1 (ST [x62] (f64_of_Z (-3)) true)).
  { split; [reflexivity|]. intros id' t' Hlt Ht. unfold token_at in Ht.
    assert (Hid : N.to_nat id' = 2 \/ N.to_nat id' = 3 \/ N.to_nat id' = 4 \/ N.to_nat id' = 5 \/ N.to_nat id' = 6 \/ 7 <= N.to_nat id') by lia.
    destruct Hid as [Hid|[Hid|[Hid|[Hid|[Hid|Hid]]]]];
      try (rewrite Hid in Ht; injection Ht as <-; discriminate).
    rewrite (proj2 (nth_error_None ex_vocab (N.to_nat id'))) in Ht; [discriminate|exact Hid]. }
  split.
  - constructor; [constructor; constructor|]. constructor; [|constructor]. left. simpl. lia.
  - intros pos len. split.
    + intros [E|[E|[]]]; injection E as <- <-.
      * split; [lia|]. split; [|exists []; constructor].
        split; [lia|]. split; [simpl; lia|]. exists (ST [x61; x62] (f64_of_Z (-4)) false). split; [simpl; auto|reflexivity].
      * split; [lia|]. split.
        -- split; [lia|]. split; [simpl; lia|]. exists (ST [x61; x62] (f64_of_Z (-4)) false). split; [simpl; auto|reflexivity].
        -- exists [5; 1]%N. change (firstn 2 [x61; x62; x61; x62]) with ([x61] ++ [x62] ++ []).
           change [x61] with (st_value (ST [x61] (f64_of_Z (-1)) false)). apply CutKept_cons; [exact La|discriminate|exact Hk1|].
           change [x62] with (st_value (ST [x62] (f64_of_Z (-3)) true)). apply CutKept_cons; [exact Lb|discriminate|exact Hk2|].
           constructor.
    + intros (H2 & (_ & Hb & t & Ht & Hv) & _). simpl in Hb.
      assert (Hl : length (st_value t) <= 2).
      { simpl in Ht. repeat (destruct Ht as [<-|Ht]; [simpl; lia|]). destruct Ht. }
      rewrite Hv, firstn_length_le in Hl by (rewrite skipn_length; cbn [length]; lia).
      assert (len = 2) by lia. subst len.
      assert (Hpos : pos = 0 \/ pos = 1 \/ pos = 2) by lia. destruct Hpos as [->|[->| ->]]; simpl in Hv.
      * now left.
      * exfalso. simpl in Ht. repeat (destruct Ht as [<-|Ht]; [discriminate|]). destruct Ht.
      * right. now left.
Qed.
