(** A concrete loop. *)
From stdpp Require Import base list.
From Coq Require Import Lia.
From Verif.ThetaGamma Require Import Model Spec Proofs.

(** Loop variable 0 counts down.  Loop variables 1 and 2 take outputs 1 and 2
    of the gamma node: subregion 1 (repetition) hands entry variable 0 (the
    pre value of variable 0) on to output 1, and subregion 0 (exit) hands
    entry variable 1 (node output 7) on to output 2. *)
Definition g0 : gamma := Gamma [Pre 0; Other 7]
  [[Inner 3; Inner 4; EntryArg 1]; [Inner 3; EntryArg 0; Inner 5]].
Definition vars0 : list loop_var :=
  [LoopVar (Other 6) false true; LoopVar (GammaOut 1) false false; LoopVar (GammaOut 2) true false; LoopVar (Pre 1) true false].
Definition body0 (pre outs gouts : nat -> nat) (b : nat) (c : bool) : Prop :=
  outs 6 = pre 0 - 1 /\ outs 7 = 10 * pre 0 /\
  (if decide (pre 0 = 0) then b = 0 /\ c = false /\ gouts 1 = 99 /\ gouts 2 = outs 7
   else b = 1 /\ c = true /\ gouts 1 = pre 0 /\ gouts 2 = 55).

Example redirect0 : redirect g0 1 0 vars0 =
  [LoopVar (Other 6) false true; LoopVar (Pre 0) false false; LoopVar (Other 7) true false; LoopVar (Pre 1) true false].
Proof. reflexivity. Qed.

Example executes0 : executes body0 g0.
Proof.
  intros pre outs gouts b c results k j o (H1 & H2 & H) Hb Hk Hj.
  destruct (decide (pre 0 = 0)) as [E|E]; destruct H as (-> & -> & H3 & H4); cbn in Hb; injection Hb as <-;
    destruct k as [|[|[|k]]]; cbn in Hk; try discriminate Hk; injection Hk as <-; cbn in Hj; injection Hj as <-; cbn; congruence.
Qed.
Example uses0 : uses body0 g0 vars0.
Proof.
  split.
  - intros pre pre' outs gouts b c H Hs. unfold body0 in *. rewrite (Hs 0 (LoopVar (Other 6) false true) eq_refl eq_refl). exact H.
  - intros i Hi. cbn in Hi. apply elem_of_cons in Hi. destruct Hi as [Hi|Hi].
    + injection Hi as ->. eexists. split; reflexivity.
    + apply elem_of_list_singleton in Hi. discriminate Hi.
Qed.
Example roles0 : roles body0 1 0.
Proof. intros pre outs gouts b c (_ & _ & H). destruct (decide (pre 0 = 0)); destruct H as (-> & -> & _); reflexivity. Qed.
Example posts_valid0 : posts_valid vars0.
Proof. intros i v j Hi Hp. destruct i as [|[|[|[|i]]]]; cbn in Hi; try discriminate Hi; injection Hi as <-; cbn in Hp; try discriminate Hp. injection Hp as <-. cbn. lia. Qed.

(** The loop runs from 1: the body is executed twice. *)
Example run0 : exists fin, run body0 (posts_of vars0) (fun i => if i =? 0 then 1 else 42) fin /\ fin 2 = 0 /\ fin 3 = 1.
Proof.
  eexists. split; [|split].
  - eapply run_repeat.
    + instantiate (1 := 1). instantiate (1 := fun k => if k =? 1 then 1 else 55). instantiate (1 := fun o => if o =? 7 then 10 else 0). repeat split.
    + eapply run_exit. instantiate (1 := 0). instantiate (1 := fun k => if k =? 1 then 99 else 0). instantiate (1 := fun o => 0). repeat split.
  - reflexivity.
  - reflexivity.
Qed.
