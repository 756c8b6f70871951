(** The dominator tree. *)
From stdpp Require Import base list fin_sets gmap fin_maps.
From Coq Require Import Lia.
From Verif.Cfg Require Import Model.
From Verif.Domtree Require Import Model Spec Proofs1 Proofs2 Proofs3.

(** a is v, or on the way from v to the root *)
Inductive above (t : tree) : nat -> nat -> Prop :=
  | above_refl v : above t v v
  | above_up a v d k : t !! v = Some (Some d, k) -> above t a d -> above t a v.
Section Properties.
  Context (g : cfg) (inedges : nat -> list nat) (arrange : list nat -> list nat).
  Hypothesis Hc : connected g.
  Hypothesis Hedge : forall v p, p ∈ inedges v <-> v ∈ sinks g p.
  Hypothesis Harr : forall l, arrange l ≡ₚ l.
  (** C100: it ends, without a failed assertion, if all nodes are reachable *)
  Theorem domtree_total : is_Some (domtree g inedges arrange).
  Proof using Hc Hedge Harr. destruct (domtree_ok g inedges Hc Hedge arrange Harr) as (t & E & _). by eexists. Qed.
  (** C100: the tree has the nodes of the graph, the entry is its root, the parents are the immediate dominators and the depths are right *)
  Theorem domtree_correct t : domtree g inedges arrange = Some t ->
    (forall v, is_Some (t !! v) <-> v = entry \/ v = exit \/ is_Some (blocks g !! v)) /\ t !! entry = Some (None, 0) /\
    forall v pd k, v <> entry -> t !! v = Some (pd, k) -> exists d k' o, pd = Some d /\ k = S k' /\ t !! d = Some (o, k') /\ idom g d v.
  Proof using Hc Hedge Harr.
    intros H. destruct (domtree_ok g inedges Hc Hedge arrange Harr) as (t' & E & H1 & H2 & H3). rewrite E in H. injection H as ->. split; [|split; [done|]].
    - intros v. rewrite (H2 v). apply in_nodes.
    - intros v pd k Hv Hk. destruct (H3 v pd k Hv Hk) as (d & k' & -> & -> & Hi & o & Ho). by exists d, k', o.
  Qed.
  (** C100: a node dominates another one if and only if it is the other one, or above it in the tree *)
  Theorem domtree_ancestors t d v : domtree g inedges arrange = Some t -> v = entry \/ v = exit \/ is_Some (blocks g !! v) -> dominates g d v <-> above t d v.
  Proof using Hc Hedge Harr.
    intros H Hv. destruct (domtree_correct t H) as (H1 & H2 & H3). apply H1 in Hv as [[pd k] Hv]. split.
    - revert v pd Hv. induction k as [k IH] using lt_wf_ind. intros v pd Hv Hd. destruct (decide (d = v)) as [->|Hne]; [constructor|]. destruct (decide (v = entry)) as [->|Hve].
      + specialize (Hd [entry] (walk_entry g)). by apply elem_of_list_singleton in Hd.
      + destruct (H3 v pd k Hve Hv) as (p & k' & o & -> & -> & Hp & _ & Hi). eapply above_up; [exact Hv|]. eapply IH; [|exact Hp|by apply Hi]. lia.
    - intros Ha. revert pd k Hv. induction Ha as [v|a v p k0 Hp Ha IH]; intros pd k Hv.
      + intros l Hl. inversion Hl; subst; [by left|]. apply elem_of_app. right. by left.
      + assert (Hve : v <> entry) by (intros ->; congruence). destruct (H3 v (Some p) k0 Hve Hp) as (p' & k' & o & [= <-] & -> & Hp' & [[_ Hd] _]).
        intros l Hl. pose proof (Hd l Hl) as Hin. specialize (IH _ _ Hp').
        assert (Hpre : forall l v, walk g l v -> forall x, x ∈ l -> exists l', walk g l' x /\ forall y, y ∈ l' -> y ∈ l).
        { clear. intros l v Hl. induction Hl as [|l q v Hl IHl He]; intros x Hx; [apply elem_of_list_singleton in Hx as ->; exists [entry]; split; [constructor | done]|]. apply elem_of_app in Hx as [Hx|Hx].
          - destruct (IHl x Hx) as (l' & Hw & Hs). exists l'. split; [done|]. intros y Hy. apply elem_of_app. left. by apply Hs.
          - apply elem_of_list_singleton in Hx as ->. exists (l ++ [v]). split; [by eapply walk_step | done]. }
        destruct (Hpre l v Hl p Hin) as (l' & Hw & Hs). apply Hs. by apply IH.
  Qed.
End Properties.
(** C100: so it does not depend on the order of the sets *)
Theorem domtree_unique g i1 a1 i2 a2 : connected g -> (forall v p, p ∈ i1 v <-> v ∈ sinks g p) -> (forall l, a1 l ≡ₚ l) -> (forall v p, p ∈ i2 v <-> v ∈ sinks g p) -> (forall l, a2 l ≡ₚ l) -> domtree g i1 a1 = domtree g i2 a2.
Proof.
  intros Hc E1 A1 E2 A2. destruct (domtree_total g i1 a1 Hc E1 A1) as [t1 H1]. destruct (domtree_total g i2 a2 Hc E2 A2) as [t2 H2]. rewrite H1, H2. f_equal.
  destruct (domtree_correct g i1 a1 Hc E1 A1 t1 H1) as (N1 & R1 & P1). destruct (domtree_correct g i2 a2 Hc E2 A2 t2 H2) as (N2 & R2 & P2).
  assert (Hlow : forall d v, above t1 d v -> forall pd k, t1 !! v = Some (pd, k) -> exists pd' k', t1 !! d = Some (pd', k') /\ k' <= k /\ (k' = k -> d = v)).
  { induction 1 as [v|a v p k0 Hp Ha IH]; intros pd k Hv; [by exists pd, k|]. assert (Hve : v <> entry) by (intros ->; congruence). rewrite Hp in Hv. injection Hv as <- <-. destruct (P1 v (Some p) k0 Hve Hp) as (p' & k' & o & [= <-] & -> & Hp' & _). destruct (IH _ _ Hp') as (pd' & k2 & Ha' & L & _). exists pd', k2. split; [done|]. split; lia. }
  assert (Hanti : forall d e, is_Some (t1 !! d) -> is_Some (t1 !! e) -> dominates g d e -> dominates g e d -> d = e).
  { intros d e [[pd k] Hd] [[pe k'] He] D1 D2. apply (domtree_ancestors g i1 a1 Hc E1 A1 t1 d e H1) in D1; [|apply N1; by eexists]. apply (domtree_ancestors g i1 a1 Hc E1 A1 t1 e d H1) in D2; [|apply N1; by eexists].
    destruct (Hlow d e D1 _ _ He) as (x & kx & Hx & L & Heq). destruct (Hlow e d D2 _ _ Hd) as (y & ky & Hy & L' & _). rewrite Hd in Hx. injection Hx as -> ->. rewrite He in Hy. injection Hy as -> ->. apply Heq. lia. }
  assert (H : forall k v pd, t1 !! v = Some (pd, k) -> t2 !! v = Some (pd, k)).
  { induction k as [k IH] using lt_wf_ind. intros v pd Hv. destruct (decide (v = entry)) as [->|Hve]; [congruence|]. destruct (P1 v pd k Hve Hv) as (d & k' & o & -> & -> & Hd & [[Hn Hdom] Hall]).
    assert (Hv2 : is_Some (t2 !! v)) by (apply N2, N1; by eexists). destruct Hv2 as [[pd2 k2] Hv2]. destruct (P2 v pd2 k2 Hve Hv2) as (d2 & k2' & o2 & -> & -> & Hd2 & [[Hn2 Hdom2] Hall2]).
    assert (d = d2) as <- by (apply Hanti; [by eexists | apply N1, N2; by eexists | by apply Hall2 | by apply Hall]).
    specialize (IH k' ltac:(lia) d o Hd). rewrite IH in Hd2. injection Hd2 as _ <-. done. }
  apply map_eq. intros v. destruct (t1 !! v) as [[pd k]|] eqn:Hv; [by rewrite (H k v pd Hv)|]. destruct (t2 !! v) as [e|] eqn:Hv2; [|done]. exfalso. assert (Hs : is_Some (t1 !! v)) by (apply N1, N2; by eexists). rewrite Hv in Hs. by destruct Hs.
Qed.

(** entry -> 2; 2 -> 3, 4; 3 -> 5; 4 -> 5, 2; 5 -> exit, 4 *)
Definition graph : cfg := Cfg (list_to_map [(2, Block [] [3; 4]); (3, Block [] [5]); (4, Block [] [5; 2]); (5, Block [] [1; 4])]) 2.
Definition incoming (v : nat) : list nat := match v with 1 => [5] | 2 => [4; 0] | 3 => [2] | 4 => [5; 2] | 5 => [4; 3] | _ => [] end.
Example example_tree : (fun t : tree => map (fun v => t !! v) [0; 1; 2; 3; 4; 5; 6]) <$> domtree graph incoming (fun l => l) =
  Some [Some (None, 0); Some (Some 5, 3); Some (Some 0, 1); Some (Some 2, 2); Some (Some 2, 2); Some (Some 2, 2); None].
Proof. vm_compute. reflexivity. Qed.
Ltac cases := repeat match goal with H : _ ∈ _ :: _ |- _ => apply elem_of_cons in H as [H|H] | H : _ ∈ [] |- _ => by apply elem_of_nil in H end.
Lemma graph_sinks p : sinks graph p = match p with 0 => [2] | 2 => [3; 4] | 3 => [5] | 4 => [5; 2] | 5 => [1; 4] | _ => [] end.
Proof.
  unfold sinks. destruct (decide (p = entry)) as [->|Hp]; [done|]. unfold graph. cbn [blocks list_to_map foldr uncurry fst snd].
  destruct (decide (p = 2)) as [->|]; [by rewrite lookup_insert|]. rewrite lookup_insert_ne by done. destruct (decide (p = 3)) as [->|]; [by rewrite lookup_insert|]. rewrite lookup_insert_ne by done.
  destruct (decide (p = 4)) as [->|]; [by rewrite lookup_insert|]. rewrite lookup_insert_ne by done. destruct (decide (p = 5)) as [->|]; [by rewrite lookup_insert|]. rewrite lookup_insert_ne by done. rewrite lookup_empty.
  unfold entry in Hp. destruct p as [|[|[|[|[|[|p]]]]]]; done.
Qed.
Example example_incoming v p : p ∈ incoming v <-> v ∈ sinks graph p.
Proof.
  rewrite graph_sinks. split.
  - intros H. destruct v as [|[|[|[|[|[|v]]]]]]; cbn [incoming] in H; cases; subst p; apply elem_of_list_In; cbn; tauto.
  - intros H. destruct p as [|[|[|[|[|[|p]]]]]]; cases; subst v; apply elem_of_list_In; cbn; tauto.
Qed.
Example example_connected : connected graph.
Proof.
  split; [done|]. split; [done|]. split.
  - intros n m H. rewrite graph_sinks in H. destruct n as [|[|[|[|[|[|n]]]]]]; cases; subst m; (by left) || (right; by eexists).
  - assert (E : forall l p v, walk graph l p -> bool_decide (v ∈ sinks graph p) = true -> walk graph (l ++ [v]) v) by (intros l p v Hl H%bool_decide_eq_true; by eapply walk_step).
    assert (W2 : walk graph [0; 2] 2) by (by apply (E [0] 0); [constructor|]). assert (W3 : walk graph [0; 2; 3] 3) by (by apply (E [0; 2] 2)). assert (W4 : walk graph [0; 2; 4] 4) by (by apply (E [0; 2] 2)).
    assert (W5 : walk graph [0; 2; 3; 5] 5) by (by apply (E [0; 2; 3] 3)). assert (W1 : walk graph [0; 2; 3; 5; 1] 1) by (by apply (E [0; 2; 3; 5] 5)).
    intros v [->|[b Hb]]; [by eexists|]. unfold graph in Hb. cbn [blocks] in Hb. apply elem_of_list_to_map_2 in Hb. cases; injection Hb as -> _; by eexists.
Qed.
(** the test that the graph is closed is no test that all nodes are reachable: with a cycle that is not, an assertion fails *)
Definition unreachable : cfg := Cfg (list_to_map [(2, Block [] [1]); (3, Block [] [4]); (4, Block [] [3])]) 2.
Theorem domtree_closed_refuted : exists g, is_closed g = true /\ blocks g !! entry = None /\ blocks g !! exit = None /\ (forall n m, m ∈ sinks g n -> m = exit \/ is_Some (blocks g !! m)) /\ forall inedges arrange, domtree g inedges arrange = None.
Proof.
  exists unreachable. split; [by vm_compute|]. split; [done|]. split; [done|]. split.
  - intros n m H. unfold sinks in H. destruct (decide (n = entry)) as [->|Hp]; [apply elem_of_list_singleton in H as ->; right; by eexists|]. destruct (blocks unreachable !! n) as [b|] eqn:Hb; [|by apply elem_of_nil in H].
    unfold unreachable in Hb. cbn [blocks] in Hb. apply elem_of_list_to_map_2 in Hb. cases; injection Hb as -> ->; cbn [succ] in H; cases; subst m; (by left) || (right; by eexists).
  - intros inedges arrange. reflexivity.
Qed.
