(** Aggregating an acyclic subgraph. *)
From stdpp Require Import tactics relations base list list_numbers fin_sets gmap fin_maps.
From Verif.Construct Require Import Model Spec.
From Verif.Aggregation Require Import Model Spec ProofsRun ProofsInv ProofsStep.

Notation invs cx st R := (inv cx (gr st) (next st) (ent st) (ext st) R).
Definition steps (cx : ctx) (st : state) (R : gset nat) (st' : state) : Prop :=
  exists R', invs cx st' R' /\ frame (gr st) (next st) (ent st) R (gr st') (next st') (ent st') R' /\ (ext st' = ext st \/ next st <= ext st') /\
    same cx (gr st) (ent st) (ext st) (gr st') (ent st') (ext st').
Lemma same_refl cx G e x : same cx G e x G e x.
Proof. intros V ctl sem truth σ σ'. done. Qed.
Lemma same_trans cx G e x G1 e1 x1 G2 e2 x2 : same cx G e x G1 e1 x1 -> same cx G1 e1 x1 G2 e2 x2 -> same cx G e x G2 e2 x2.
Proof. intros H1 H2 V ctl sem truth σ σ'. rewrite (H1 V ctl sem truth σ σ'). apply H2. Qed.
Lemma steps_refl cx st R : invs cx st R -> steps cx st R st.
Proof. intros I. exists R. split; [done|]. split; [apply frame_refl, I|]. split; [by left|]. apply same_refl. Qed.
Lemma steps_cons cx st R st1 R1 st2 : invs cx st R -> frame (gr st) (next st) (ent st) R (gr st1) (next st1) (ent st1) R1 -> (ext st1 = ext st \/ next st <= ext st1) ->
  same cx (gr st) (ent st) (ext st) (gr st1) (ent st1) (ext st1) -> steps cx st1 R1 st2 -> steps cx st R st2.
Proof.
  intros I F X S (R2 & I2 & F2 & X2 & S2). exists R2. split; [done|]. split; [eapply frame_trans; [apply I|exact F|exact F2]|]. split; [|by eapply same_trans].
  destruct X2 as [->|X2]; [done|]. right. destruct F. lia.
Qed.
Lemma live_in G c e R G' c' e' R' n : frame G c e R G' c' e' R' -> n ∈ R -> is_Some (G' !! n) -> n ∈ R'.
Proof. intros F Hn Hl. destruct (decide (n ∈ R')) as [|H]; [done|]. apply F in H. rewrite decide_True in H by done. rewrite H in Hl. by destruct Hl. Qed.
Lemma each_ok cx (f : state -> nat -> option state) n : (forall st s R st', invs cx st R -> s ∈ R -> f st s = Some st' -> steps cx st R st') ->
  forall l st R st', invs cx st R -> n ∈ R -> n <> ext st -> each f n l st = Some st' -> steps cx st R st'.
Proof.
  intros Hf. induction l as [|i l IH]; intros st R st' I Hn Hnx; cbn; [intros [= <-]; by apply steps_refl|].
  destruct (gr st !! n) as [nd|] eqn:En; [|done]. cbn. destruct (outs nd !! i) as [s|] eqn:Es; [|done]. cbn.
  destruct (f st s) as [st1|] eqn:E1; [|done]. cbn. intros H. assert (HsR : s ∈ R).
  { destruct (decide (s ∈ R)); [done|]. exfalso. apply Hnx, (inv_out _ _ _ _ _ _ I n s); [|done|done]. rewrite (outs_of_some _ _ _ En). by eapply elem_of_list_lookup_2. }
  destruct (Hf _ _ _ _ I HsR E1) as (R1 & I1 & F1 & X1 & S1). eapply steps_cons; [done|exact F1|exact X1|exact S1|]. destruct l as [|j l]; [cbn in H; injection H as <-; by apply steps_refl|].
  apply IH; [done| | |done].
  - eapply live_in; [exact F1|done|]. cbn in H. destruct (gr st1 !! n) eqn:E; [by eexists|done].
  - pose proof (R_lt _ _ _ _ _ _ I n Hn). destruct X1 as [->|X1]; [done|lia].
Qed.
Lemma acyclic_ok fuel : forall cx st n R st', invs cx st R -> n ∈ R -> acyclic fuel st n = Some st' -> steps cx st R st'.
Proof.
  induction fuel as [|fuel IH]; intros cx st n R st' I Hn; [done|]. cbn [acyclic]. destruct (decide (ent st = ext st)) as [Hee|Hee]; [destruct (decide (n = ent st)); [|done]; intros [= <-]; by apply steps_refl|].
  destruct (decide (n = ext st)) as [Hnx|Hnx]; [intros [= <-]; by apply steps_refl|]. destruct (gr st !! n) as [nd|] eqn:En; [|done]. cbn [mbind option_bind].
  pose proof (outs_of_some _ _ _ En) as Ho. destruct (outs nd) as [|s [|s' o]] eqn:Eo.
  - destruct (decide (1 < in_degree (gr st) n)); [|done]. intros [= <-]. by apply steps_refl.
  - destruct (decide (in_degree (gr st) s = 1)) as [Hd|Hd].
    + destruct (reduce_linear st n s) as [st1|] eqn:E1; [|done]. cbn. intros H. assert (E1' := E1). destruct st as [G c e x]; cbn in *.
      destruct (linear_step cx G c e x R n s st1 I Hn Hnx Ho Hd E1) as (Hnext & R1 & I1 & F1 & Hc & S1). rewrite <-Hnext in I1, F1.
      eapply (steps_cons cx (State G c e x) R st1 R1); [exact I|exact F1| |exact S1|by apply IH with c].
      clear -E1'. cbn. unfold reduce_linear in E1'. cbn in E1'. case_decide; [done|]. destruct (G !! n); [|done]. destruct (G !! s); [|done]. cbn in E1'. injection E1' as <-. cbn.
      unfold redirect. case_decide; [right; lia|by left].
    + destruct (decide (in_degree (gr st) n = 1)); [|destruct (decide (1 < in_degree (gr st) n)); [intros [= <-]; by apply steps_refl|done]]. intros H. apply (IH cx st s R st'); [done| |done].
      destruct (decide (s ∈ R)); [done|]. exfalso. apply Hnx, (inv_out _ _ _ _ _ _ I n s); [|done|done]. rewrite Ho. by left.
  - cbn zeta. destruct (each (acyclic fuel) n (seq 0 (length (s :: s' :: o))) st) as [st1|] eqn:E1; [|done]. cbn [mbind option_bind].
    destruct (is_branch (gr st1) n) as [join|] eqn:Eb; [|done]. cbn. destruct (reduce_branch st1 n join) as [st2|] eqn:E2; [|done]. cbn. intros H.
    destruct (each_ok cx (acyclic fuel) n (IH cx) _ _ _ _ I Hn Hnx E1) as (R1 & I1 & F1 & X1 & S1).
    eapply steps_cons; [done|exact F1|exact X1|exact S1|].
    assert (Hn1 : n ∈ R1). { eapply live_in; [exact F1|done|]. apply is_branch_some in Eb as (nd1 & Hnd1 & _). by eexists. }
    assert (Hnx1 : n <> ext st1). { pose proof (R_lt _ _ _ _ _ _ I n Hn). destruct X1 as [->|X1]; [done|lia]. }
    destruct st1 as [G c e x]; cbn in *. destruct (branch_step cx G c e x R1 n join st2 I1 Hn1 Hnx1 Eb E2) as (Hnext & Hx & R2 & I2 & F2 & Hc & S2). rewrite <-Hnext in I2, F2.
    eapply (steps_cons cx (State G c e x) R1 st2 R2); [exact I1|exact F2|by left|exact S2|by apply IH with c].
Qed.
