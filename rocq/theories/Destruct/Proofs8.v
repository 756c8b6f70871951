(** The graph of a lambda node's region is valid; straightening. *)
From stdpp Require Import base list gmap.
From Coq Require Import Lia.
From Verif.Construct Require Import Model Spec.
From Verif.Cfg Require Import Model Spec ProofsBase ProofsStraighten.
From Verif.LocalRegion Require Import Model Spec Facts.
From Verif.Unswitch Require Import Spec.
From Verif.Sinking Require Import Spec.
From Verif.Hoisting Require Import Spec.
From Verif.Destruct Require Import Model Spec Proofs1 Proofs2 Proofs3 Proofs4 Proofs5 Proofs6 Proofs7.

Lemma params_bounded r params next e : (forall v, v ∈ params -> v < next) -> insert_vars (rargs r) params ∅ = Some e -> bounded e next.
Proof. intros Hp He x v Hx. apply (insert_vars_cases _ _ _ _ _ _ He) in Hx as [Hx|(j & _ & Hj)]; [by rewrite lookup_empty in Hx|]. apply Hp. by eapply elem_of_list_lookup_2. Qed.
Lemma create_graph_valid opcode r params next g results : well r -> (forall v, v ∈ params -> v < next) -> create_graph opcode r params next = Some (g, results) -> valid g /\ closed g.
Proof.
  intros Hw Hp H. unfold create_graph in H. apply bind_Some in H as (e & He & H). set (s := State {[2 := Block [] []]} 2 3 next) in *. apply bind_Some in H as ([e' s'] & Hr & H). apply bind_Some in H as (rs & Hres & [= <- <-]).
  assert (Hk : ok s) by apply start_ok. assert (Hb : bounded e (nv s)) by (by apply (params_bounded r params)).
  destruct (convert_region_keeps opcode r Hw _ _ _ _ Hr Hk Hb) as [KV _]. destruct (region_blocks opcode r _ _ _ _ Hw Hr Hk Hb) as (R1 & R2 & R3 & R4 & R5 & R6 & R7 & R8). pose proof (ok_cur_lt _ R1) as Hlt.
  assert (V0 : V (bl s) ((fun _ => False) ∪ cur s) (fun _ => False) (fun _ => False)).
  { split.
    - intros n b Hn. cbn in Hn. apply lookup_singleton_Some in Hn as [<- <-]. split; [by intros m ?%elem_of_nil | tauto|]. exists [], []. split; [done|]. by intros _ q ?%elem_of_nil.
    - intros n [b Hn] _. cbn in Hn. apply lookup_singleton_Some in Hn as [<- <-]. exists entry. by left. }
  apply KV in V0. set (G := bl (add_edge (cur s') exit s')).
  assert (V1 : V G (fun _ => False) (fun _ => False) (fun _ => False)).
  { eapply V_weaken; [| | |eapply (V_goto (bl s') (fun _ => False) (fun _ => False) (fun _ => False) (cur s') exit); [exact R6 | by left | by apply ok_exit | exact V0]]; tauto. }
  assert (HG : forall n, is_Some (G !! n) -> 1 < n). { intros n Hn. unfold G, add_edge in Hn. cbn [bl] in Hn. rewrite is_Some_alter in Hn. apply (ok_dom s' R1) in Hn. lia. }
  assert (H2 : is_Some (G !! 2)). { unfold G, add_edge. cbn [bl]. rewrite is_Some_alter. apply (ok_dom s' R1). change (nb s) with 3 in R3. lia. }
  destruct V1 as [W1 W2]. assert (Hedge : forall p n, edge (Cfg G 2) p n <-> pred G p n) by done. split; [|intros n Hn; destruct (W2 n Hn) as [p Hp']; [tauto | by exists p]]. split.
  - cbn [blocks]. split; [destruct (G !! entry) eqn:E; [|done] | destruct (G !! exit) eqn:E; [|done]]; exfalso; [specialize (HG entry); unfold entry in * | specialize (HG exit); unfold exit in *]; rewrite E in HG; assert (1 < _) by (apply HG; eauto); lia.
  - intros n m [[_ ->]|(b & Hn & Hm)]; [by right|]. destruct (W1 n b Hn) as [A _ _]. by apply A.
  - intros n b Hn. destruct (W1 n b Hn) as [A1 A2 (ps & ts & A3 & A4)]. destruct A2 as [A2 A2']; [tauto|]. split; [done|]. split; [done|]. unfold valid_phis. rewrite A3, split_phis_phi. cbn [fst snd]. split; [exists ts; by rewrite plain_tacs|]. intros x ops Hx. apply (A4 ltac:(tauto) (x, ops) Hx).
Qed.

Lemma merged_closed g n s b c : valid g -> closed g -> blocks g !! n = Some b -> succ b = [s] -> (forall p, edge g p s -> p = n) -> blocks g !! s = Some c -> has_phi c = false -> closed (merged g n s b c).
Proof.
  intros Hv Hcl Hb Hs Hone Hc Hp k Hk. assert (Hen : forall m, edge g n m -> m = s) by exact (edge_n g n s b c Hv Hb Hs Hone Hc Hp).
  destruct (decide (k = n)) as [->|Hkn]; [rewrite merged_n in Hk; by destruct Hk|].
  destruct (decide (s = n)) as [E|E].
  - assert (Hk' : is_Some (blocks g !! k)). { rewrite merged_other in Hk by congruence. by rewrite fmap_is_Some in Hk. }
    destruct (Hcl k Hk') as [p Hpk]. exists p. apply (merged_edge_self g n s b c Hv Hb Hs Hone Hc Hp E). split; [|done]. intros ->. apply Hen in Hpk. congruence.
  - destruct (decide (k = s)) as [->|Hks].
    + destruct (Hcl n ltac:(eauto)) as [p Hpn]. exists p. apply (merged_edge g n s b c Hv Hb Hs Hone Hc Hp E). split; [|exists n; split; [done|]; unfold redirect; by rewrite decide_True]. intros ->. apply Hen in Hpn. congruence.
    + assert (Hk' : is_Some (blocks g !! k)). { rewrite merged_other in Hk by done. by rewrite fmap_is_Some in Hk. }
      destruct (Hcl k Hk') as [p Hpk]. exists p. apply (merged_edge g n s b c Hv Hb Hs Hone Hc Hp E). split; [intros ->; apply Hen in Hpk; congruence|]. exists k. split; [done|]. unfold redirect. by rewrite decide_False.
Qed.
Lemma straighten_closed l : forall g g', valid g -> closed g -> straighten l g = Some g' -> closed g'.
Proof.
  induction l as [|n l IH]; intros g g' Hv Hc H; [by injection H as <-|]. cbn in H. apply bind_Some in H as (g1 & H1 & H2).
  assert (Hs1 : straighten [n] g = Some g1) by (cbn; by rewrite H1). destruct (straighten_ok [n] g Hv) as (g1' & E & Hv1 & _). rewrite Hs1 in E. injection E as <-.
  apply (IH g1 g' Hv1); [|exact H2]. destruct (straighten_cases g n g1 Hv H1) as [->|(b & s & c & A1 & A2 & A3 & A4 & A5 & _ & ->)]; [done|]. by apply merged_closed.
Qed.
Lemma create_cfg_ok opcode order r params next g0 results : well r -> (forall v, v ∈ params -> v < next) -> create_graph opcode r params next = Some (g0, results) ->
  exists g, create_cfg opcode order r params next = Some (g, results) /\ valid g /\ closed g /\ @implements opcode r params g results.
Proof.
  intros Hw Hp H. destruct (create_graph_valid _ _ _ _ _ _ Hw Hp H) as [Hv Hc]. destruct (straighten_ok (order g0) g0 Hv) as (g & H1 & H2 & H3). exists g. unfold create_cfg. rewrite H. cbn. rewrite H1. split; [done|]. split; [done|]. split; [exact (straighten_closed _ _ _ Hv Hc H1)|].
  intros other content sem truth Hsem σ ws. rewrite (create_graph_implements _ _ _ _ _ _ Hw Hp H other content sem truth Hsem). split; intros (σ' & A & B); exists σ'; (split; [by apply H3 | done]).
Qed.
