(** Aggregating a subgraph and a whole control flow graph. *)
From stdpp Require Import tactics relations base list list_numbers fin_sets gmap fin_maps.
From Verif.Construct Require Import Model Spec.
From Verif.Cfg Require Model Spec.
From Verif.Aggregation Require Import Model Spec ProofsRun ProofsInv ProofsStep ProofsAcyclic ProofsLoops.

Definition selfs (G : graph) (R : gset nat) : Prop := forall n, n ∈ R -> n ∈ outs_of G n -> length (outs_of G n) <= 2.
Definition nested_ok (aggr : graph -> nat -> nat -> nat -> option (graph * nat * nat)) : Prop :=
  forall K E X s G c e x R G' c' n, inv (Nested K E X s) G c e x R -> x ∉ outs_of G x -> selfs G R -> aggr G c e x = Some (G', c', n) ->
    inv (Nested K E X s) G' c' n n {[n]} /\ frame G c e R G' c' n {[n]} /\ same (Nested K E X s) G e x G' n n.
Lemma aggregate_loops_ok aggr : nested_ok aggr -> forall l cx G c e x R G' c', inv cx G c e x R -> NoDup l -> (forall S S', S ∈ l -> S' ∈ l -> S = S' \/ forall z : nat, z ∈ S -> z ∉ S') ->
  (forall S, S ∈ l -> region G e x R S) -> aggregate_loops aggr l G c = Some (G', c') ->
  exists R', inv cx G' c' e x R' /\ frame G c e R G' c' e R' /\ same cx G e x G' e x.
Proof.
  intros Ha. induction l as [|S l IH]; intros cx G c e x R G' c' I Hnd Hdis Hreg; cbn.
  - intros [= <- <-]. exists R. split; [done|]. split; [apply frame_refl, I|apply same_refl].
  - destruct (tail_controlled G S) as [[[h t] j]|] eqn:Et; [|done]. cbn. destruct (decide (j = 1)) as [->|]; [|done]. apply tail_some in Et as (s & F).
    destruct (aggr (remove_outedge t 1 G) c h t) as [[[G1' c1] n]|] eqn:Ea; [|done]. cbn. destruct (decide (is_Some (G1' !! n))); [|done]. intros H.
    pose proof (Hreg S ltac:(by left)) as Rg. apply NoDup_cons in Hnd as (HS & Hnd).
    pose proof (inner_inv cx G c e x h t s R S I Rg F) as I1. destruct (inner_self cx G c e x h t s R S I Rg F) as (Hs1 & Hs2).
    destruct (Ha _ _ _ _ _ _ _ _ _ _ _ _ I1 Hs1 Hs2 Ea) as (I' & Fr & Sm).
    pose proof (loop_inv cx G c e x h t s R S I Rg F G1' c1 n I' Fr Sm) as I2.
    pose proof (loop_frame cx G c e x h t s R S I Rg F G1' c1 n I' Fr Sm) as F2.
    pose proof (loop_same cx G c e x h t s R S I Rg F G1' c1 n I' Fr Sm) as S2.
    assert (Hdis2 : forall S1 S2, S1 ∈ l -> S2 ∈ l -> S1 = S2 \/ forall z : nat, z ∈ S1 -> z ∉ S2) by (intros S1 S3 H1 H2; apply Hdis; by right).
    assert (Hreg2 : forall S', S' ∈ l -> region (G2 G1' n) e x (R2 R S n) S').
    { intros S' HS'. apply (loop_region cx G c e x h t s R S I Rg F G1' c1 n I' Fr Sm); [|apply Hreg; by right]. destruct (Hdis S S') as [->|?]; [by left|by right|done|done]. }
    destruct (IH cx _ _ e x _ G' c' I2 Hnd Hdis2 Hreg2 H) as (R' & I3 & F3 & S3). exists R'. split; [done|]. split; [eapply frame_trans; [apply I|exact F2|exact F3]|by eapply same_trans].
Qed.
Lemma scc_regions cx G c e x R : inv cx G c e x R -> x ∉ outs_of G x -> selfs G R -> forall S, is_scc G e x S -> region G e x R S.
Proof.
  intros I Hx Hs S (v & Hev & HS & Hv). assert (Hin : forall p q, p ∈ R -> rtc (step G x) p q -> q ∈ R).
  { intros p q Hp Hr. induction Hr as [p|p w q (Hpx & Hw) _ IH]; [done|]. apply IH. destruct (decide (w ∈ R)); [done|]. exfalso. by apply Hpx, (inv_out _ _ _ _ _ _ I p w). }
  assert (HvR : v ∈ R) by (apply (Hin e); [apply I|done]).
  assert (Htoe : forall p, p ∈ R -> rtc (step G x) p e -> p = e).
  { intros p Hp Hr. apply rtc_inv_r in Hr as [|(w & Hr & (_ & Hw))]; [done|]. exfalso. apply (inv_top _ _ _ _ _ _ I w e Hw); [by apply (Hin p)|done]. }
  assert (Hfrx : forall q, rtc (step G x) x q -> q = x). { intros q Hr. by apply rtc_inv in Hr as [|(w & (? & _) & _)]. }
  assert (HSv : (forall w, w ∈ S -> w = v) -> v ∈ outs_of G v).
  { intros Hall. destruct Hv as [Hv|Hv]; [|done]. exfalso. apply Hv, set_eq. intros w. rewrite elem_of_singleton. split; [apply Hall|intros ->; apply HS; by split]. }
  split.
  - intros z (Hz & _)%HS. by apply (Hin v).
  - intros (H1 & H2)%HS. pose proof (Htoe v HvR H1) as ->. apply (inv_top _ _ _ _ _ _ I e e); [|done|done]. apply HSv. intros w (Hw1 & Hw2)%HS. apply Htoe; [by apply (Hin e)|done].
  - intros (H1 & H2)%HS. pose proof (Hfrx v H2) as ->. apply Hx, HSv. intros w (Hw1 & Hw2)%HS. by apply Hfrx.
  - intros p q Hp Hq. assert (Hpq : rtc (step G x) p q) by (apply HS in Hp, Hq; etrans; [apply Hp|apply Hq]). revert Hp. induction Hpq as [p|p w q (Hpx & Hw) Hr IH]; intros Hp; [apply rtc_refl|].
    assert (HwS : w ∈ S). { apply HS. apply HS in Hp, Hq. split; [etrans; [apply Hp|]; by apply rtc_once|]. etrans; [exact Hr|apply Hq]. }
    eapply rtc_l; [|by apply IH]. by split.
  - intros n Hn. apply Hs. apply HS in Hn as (Hn & _). by apply (Hin v).
Qed.
Lemma scc_disjoint G e x S S' : is_scc G e x S -> is_scc G e x S' -> S = S' \/ forall z, z ∈ S -> z ∉ S'.
Proof.
  intros (v & _ & HS & _) (v' & _ & HS' & _). destruct (decide (v ∈ S')) as [Hin|Hin].
  - left. apply set_eq. intros w. rewrite HS, HS'. apply HS' in Hin. split; intros (H1 & H2); (split; [etrans; [|exact H1]; apply Hin|etrans; [exact H2|apply Hin]]).
  - right. intros z Hz Hz'. apply Hin, HS'. apply HS in Hz. apply HS' in Hz'. split; [etrans; [apply Hz'|apply Hz]|etrans; [apply Hz|apply Hz']].
Qed.
Section Aggregate.
  Context (find_sccs : graph -> nat -> nat -> list (gset nat)) (Hf : finds_sccs find_sccs).
  Lemma aggregate_both fuel : nested_ok (aggregate find_sccs fuel) /\ forall G c e x R G' c' n, inv Top G c e x R -> selfs G R -> aggregate find_sccs fuel G c e x = Some (G', c', n) ->
    exists R', inv Top G' c' n n R' /\ same Top G e x G' n n.
  Proof using Hf.
    induction fuel as [|fuel (IH & _)]; [split; [intros ????????????; done|done]|].
    assert (Hboth : forall cx G c e x R G' c' n, inv cx G c e x R -> x ∉ outs_of G x -> selfs G R -> aggregate find_sccs (S fuel) G c e x = Some (G', c', n) ->
      exists R', inv cx G' c' n n R' /\ frame G c e R G' c' n R' /\ same cx G e x G' n n).
    { intros cx G c e x R G' c' n I Hx Hs. cbn. destruct (aggregate_loops (aggregate find_sccs fuel) (find_sccs G e x) G c) as [[G1 c1]|] eqn:El; [|done]. cbn.
      destruct (acyclic fuel (State G1 c1 e x) e) as [st|] eqn:Ea; [|done]. cbn. case_decide as He; [|done]. intros [= <- <- <-]. destruct (Hf G e x) as (Hnd & Hin).
      destruct (aggregate_loops_ok _ IH _ cx G c e x R G1 c1 I Hnd) as (R1 & I1 & F1 & S1); [| |done|].
      - intros S S' HS HS'. apply (scc_disjoint G e x); by apply Hin.
      - intros S HS. eapply scc_regions; [done|done|done|]. by apply Hin.
      - destruct (acyclic_ok fuel cx (State G1 c1 e x) e R1 st I1 (inv_e _ _ _ _ _ _ I1) Ea) as (R2 & I2 & F2 & _ & S2). cbn in F2, S2. rewrite <-He in I2, S2.
        exists R2. split; [done|]. split; [eapply frame_trans; [apply I|exact F1|exact F2]|by eapply same_trans]. }
    split.
    - intros K E X s G c e x R G' c' n I Hx Hs H. destruct (Hboth _ _ _ _ _ _ _ _ _ I Hx Hs H) as (R' & I' & F' & S'). assert (R' = {[n]}) as ->; [|done].
      apply set_eq. intros z. rewrite elem_of_singleton. split; [|intros ->; apply I']. intros Hz. pose proof (inv_ctx _ _ _ _ _ _ I') as Hcx. cbn in Hcx. destruct Hcx as (_ & Hr & _).
      apply Hr in Hz. apply rtc_inv_r in Hz as [|(w & _ & (Hw & HwR & _))]; [done|]. exfalso. by apply (inv_top _ _ _ _ _ _ I' w n Hw).
    - intros G c e x R G' c' n I Hs H. destruct (Hboth Top G c e x R G' c' n I) as (R' & I' & _ & S'); [|done|done|by exists R'].
      pose proof (inv_ctx _ _ _ _ _ _ I) as Hcx. cbn in Hcx. rewrite Hcx. apply not_elem_of_nil.
  Qed.
End Aggregate.
