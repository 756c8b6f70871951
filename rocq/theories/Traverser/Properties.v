(** C20, C21, C22: the traversers, on still regions and on regions that are edited. *)
From stdpp Require Import base list gmap.
From Verif.Region Require Import Model Spec Proofs Proofs9 Properties.
From Verif.Traverser Require Import Model Spec Proofs Proofs4 Proofs5 Proofs8 Proofs11 Proofs12 Script.

(** ** C20 and C21: a region that is not edited *)
Theorem top_down_order r : built r -> acyclic r -> exists l, td_nodes r = Some l /\ ordered_by (fun n m => uses r n m) r l.
Proof.
  intros HB HA. pose proof (td_run_RI true one_at_a_time r (r, td_init r) [] HB ltac:(auto) ltac:(constructor)) as HR. pose proof (built_Inv _ HB) as HI.
  assert (all_old (next_id r) r) as HO by (intros n nd Hn; exact (proj1 (v_id _ HI) n nd Hn)).
  destruct (td_drain (next_id r) r (size (nodes r)) (td_init r) [] HR HO (todo_le _ _)) as (l & ids & t' & Hd & Hids & HR' & Hp & Hord). exists l. split; [exact Hd|].
  cbn [app] in HR'. pose proof (td_done true _ _ _ HR' eq_refl Hp HA) as HC. cbn [fst] in HC. split; [eapply ids_of_nodup; [exact Hids|apply HR']|]. split.
  - apply (ids_of_iff _ _ _ HI Hids). intros n nd Hn. apply (HC n nd Hn). now apply (HO n).
  - intros k n m Hk Hu. destruct (uses_nodes _ _ _ Hu) as [md Hm]. destruct (Hord k n m md Hk Hu Hm) as [K|K]; [inversion K|assumption].
Qed.
Theorem bottom_up_order r : built r -> acyclic r -> exists l, bu_nodes r = Some l /\ ordered_by (fun n m => uses r m n) r l.
Proof.
  intros HB HA. destruct (bu_run_RI no_creation r (r, bu_init r) [] HB ltac:(auto) ltac:(constructor)) as [HR HO]. pose proof (built_Inv _ HB) as HI. cbn [fst] in HO.
  destruct (bu_drain (next_id r) r (size (nodes r)) (bu_init r) [] HR HO (todo_le _ _)) as (l & ids & t' & Hd & Hids & HR' & Hp & Hord). exists l. split; [exact Hd|].
  cbn [app] in HR'. pose proof (bu_done _ _ _ HR' HO Hp HA) as HC. cbn [fst] in HC. split; [eapply ids_of_nodup; [exact Hids|apply HR']|]. split; [exact (ids_of_iff _ _ _ HI Hids HC)|].
  intros k n m Hk Hu. assert (exists md, nodes r !! m = Some md) as [md Hm]. { apply uses_E in Hu as [i Hi]; [|assumption]. destruct (td_to_node r i _ m (v_i _ HI) Hi) as [md Hm]. eauto. }
  destruct (Hord k n m md Hk Hu Hm) as [K|K]; [inversion K|assumption].
Qed.

(** ** C22: top down, with edits between the calls of next() *)
(** Whatever legal edits happen, next() ends, does not change the region, and what
    it returns is a node of the region that existed when the traversal began, that
    was not returned before, and whose predecessors (at this time) have all been
    returned, except those that did not exist when the traversal began. *)
Theorem top_down_next_ends r0 s ids : built r0 -> td_run anything r0 s ids -> exists x s', td_next (next_id r0) (size (nodes s.1)) s = Some (x, s').
Proof.
  intros HB HR. pose proof (td_run_RI false anything r0 s ids HB ltac:(discriminate) HR) as K. destruct s as [r t].
  destruct (td_next_total false (next_id r0) ids (size (nodes r)) r t K (todo_le _ _)) as [[x s'] H]. eauto.
Qed.
Theorem top_down_edited_partial r0 s ids fuel n s' : built r0 -> td_run anything r0 s ids -> td_next (next_id r0) fuel s = Some (Some n, s') ->
  s'.1 = s.1 /\ NoDup ids /\
  exists nd, nodes s.1 !! n = Some nd /\ nd_id nd < next_id r0 /\ nd_id nd ∉ ids /\
    forall m md, uses s.1 n m -> nodes s.1 !! m = Some md -> nd_id md ∈ ids \/ next_id r0 <= nd_id md.
Proof.
  intros HB HR H. pose proof (td_run_RI false anything r0 s ids HB ltac:(discriminate) HR) as K. destruct s as [r t].
  destruct (td_next_ok false (next_id r0) ids fuel r t (Some n) s' K H) as (E & nd & Hn & Hc & Hni & _ & Hu). split; [exact E|]. split; [apply K|]. exists nd. auto.
Qed.
(** When the traversal ends, every node that existed when it began and still
    exists has been returned; provided that RemoveInputs only took away one input
    at a time and the region is acyclic. *)
Theorem top_down_edited_complete_partial r0 s ids fuel s' n nd : built r0 -> td_run one_at_a_time r0 s ids -> td_next (next_id r0) fuel s = Some (None, s') ->
  acyclic s.1 -> nodes s.1 !! n = Some nd -> nd_id nd < next_id r0 -> nd_id nd ∈ ids.
Proof.
  intros HB HR H HA Hn Hid. pose proof (td_run_RI true one_at_a_time r0 s ids HB ltac:(auto) HR) as K. destruct s as [r t].
  destruct (td_next_ok true (next_id r0) ids fuel r t None s' K H) as (E & K' & Hp). cbn [fst] in *. rewrite <- E in HA, Hn. exact (td_done true _ _ _ K' eq_refl Hp HA n nd Hn Hid).
Qed.
(** the number of iterations of the loop in next() does not matter *)
Theorem top_down_fuel r0 s fuel fuel' x : td_next (next_id r0) fuel s = Some x -> fuel <= fuel' -> td_next (next_id r0) fuel' s = Some x.
Proof. apply td_next_more. Qed.

(** ** C22: bottom up, with edits that do not create nodes *)
Theorem bottom_up_edited_partial r0 s ids n s' : built r0 -> bu_run no_creation r0 s ids -> bu_next s = (Some n, s') ->
  s'.1 = s.1 /\ NoDup ids /\
  exists nd, nodes s.1 !! n = Some nd /\ nd_id nd ∉ ids /\ forall m md, uses s.1 m n -> nodes s.1 !! m = Some md -> nd_id md ∈ ids.
Proof.
  intros HB HR H. destruct (bu_run_RI no_creation r0 s ids HB ltac:(auto) HR) as [K HO]. destruct s as [r t].
  destruct (bu_next_ok (next_id r0) ids r t (Some n) s' K HO H) as (E & nd & Hn & Hni & _ & Hu & _). split; [exact E|]. split; [apply K|]. exists nd. auto.
Qed.
Theorem bottom_up_edited_complete_partial r0 s ids s' n nd : built r0 -> bu_run no_creation r0 s ids -> bu_next s = (None, s') ->
  acyclic s.1 -> nodes s.1 !! n = Some nd -> nd_id nd ∈ ids.
Proof.
  intros HB HR H HA Hn. destruct (bu_run_RI no_creation r0 s ids HB ltac:(auto) HR) as [K HO]. destruct s as [r t].
  destruct (bu_next_ok (next_id r0) ids r t None s' K HO H) as (E & K' & Hp). cbn [fst] in *. rewrite <- E in HA, Hn, HO. exact (bu_done _ _ _ K' HO Hp HA n nd Hn).
Qed.

(** ** Findings *)
(** 1. RemoveInputs with two indices: the notification of the second input uses
    the number of inputs before the call as threshold (node.cpp:305-340 shrinks the vector after the
    loop, traverser.cpp:225-250 subtracts 1), so a node that becomes ready this way is never visited. *)
Definition two_inputs : region := region_of [CCreateSimple 10 [] [] [] [(11, 5)]; CCreateSimple 20 [5; 5] [11; 11] [21; 22] []].
Lemma f1_check : match td_script 20 two_inputs [Some (CRemoveInputs 20 [0; 1]); None] with
  | Some (s, ids) => match td_next (next_id two_inputs) 20 s with Some (None, s') => bool_decide (id_at s.1 20 = Some 1 /\ 1 < next_id two_inputs /\ ids = [0]) && acyclicb s.1 | _ => false end
  | None => false end = true.
Proof. vm_compute. reflexivity. Qed.
Theorem top_down_misses_node_refuted :
  exists r0 s ids fuel s' n nd, built r0 /\ td_run anything r0 s ids /\ td_next (next_id r0) fuel s = Some (None, s') /\ acyclic s.1 /\
    nodes s.1 !! n = Some nd /\ nd_id nd < next_id r0 /\ nd_id nd ∉ ids.
Proof.
  pose proof f1_check as K. destruct (td_script _ _ _) as [[s ids]|] eqn:E; [|discriminate]. destruct (td_next _ _ s) as [[[?|] s']|] eqn:En; [discriminate| |discriminate].
  apply andb_true_iff in K as [K KA]. apply bool_decide_eq_true in K as (K1 & K2 & ->). unfold id_at in K1. destruct (nodes s.1 !! 20) as [nd|] eqn:Hn; [|discriminate]. cbn in K1. injection K1 as K1.
  pose proof (td_script_run anything _ _ _ _ _ ltac:(intros; exact I) E) as HR. pose proof (region_of_built [CCreateSimple 10 [] [] [] [(11, 5)]; CCreateSimple 20 [5; 5] [11; 11] [21; 22] []]) as HB. change (built two_inputs) in HB.
  exists two_inputs, s, [0], 20, s', 20, nd. split; [exact HB|]. split; [exact HR|]. split; [exact En|]. split.
  - apply acyclicb_acyclic; [|exact KA]. apply (td_run_RI false anything two_inputs s [0] HB ltac:(discriminate) HR).
  - split; [exact Hn|]. rewrite K1. split; [exact K2|]. intros H. apply elem_of_list_singleton in H. discriminate.
Qed.
(** 2. A structural node is announced before it has inputs (structural-node.cpp:45-57), so the top-down
    traverser takes it for visited; a node that is made to depend on it is visited
    before the nodes that the structural node is given as inputs. *)
Definition two_nodes : region := region_of [CAddArgument 1 5; CCreateSimple 10 [5] [1] [12] [(11, 5)]; CCreateSimple 20 [5] [11] [21] [(22, 5)]; CCreateSimple 30 [5] [1] [31] []].
Definition f2_steps : list (option command) := [None; Some (CCreateStructural 40 1); Some (CAddOutput 40 41 5); Some (CAddInput 40 42 22 5); Some (CDivertTo 31 41)].
Lemma f2_check : match td_script 20 two_nodes f2_steps with
  | Some (s, ids) => match td_next (next_id two_nodes) 20 s with Some (Some n, s') => bool_decide (n = 30 /\ id_at s.1 20 = Some 1 /\ 1 < next_id two_nodes /\ ids = [0]) && usesb s.1 30 40 && usesb s.1 40 20 | _ => false end
  | None => false end = true.
Proof. vm_compute. reflexivity. Qed.
Theorem top_down_indirect_dependence_refuted :
  exists r0 s ids fuel n s' k m md, built r0 /\ td_run one_at_a_time r0 s ids /\ td_next (next_id r0) fuel s = Some (Some n, s') /\
    uses s.1 n k /\ uses s.1 k m /\ nodes s.1 !! m = Some md /\ nd_id md < next_id r0 /\ nd_id md ∉ ids.
Proof.
  pose proof f2_check as K. destruct (td_script _ _ _) as [[s ids]|] eqn:E; [|discriminate]. destruct (td_next _ _ s) as [[[n|] s']|] eqn:En; [|discriminate|discriminate].
  apply andb_true_iff in K as [K KB]. apply andb_true_iff in K as [K KA]. apply bool_decide_eq_true in K as (-> & K1 & K2 & ->). unfold id_at in K1. destruct (nodes s.1 !! 20) as [nd|] eqn:Hn; [|discriminate]. cbn in K1. injection K1 as K1.
  assert (td_run one_at_a_time two_nodes s [0]) as HR.
  { apply (td_script_run one_at_a_time 20 _ f2_steps); [|exact E]. intros c r H. unfold f2_steps in H. repeat (apply elem_of_cons in H as [H|H]; [try discriminate H; injection H as ->; exact I|]). inversion H. }
  exists two_nodes, s, [0], 20, 30, s', 40, 20, nd. split; [apply region_of_built|]. split; [exact HR|]. split; [exact En|]. split; [now apply usesb_uses|]. split; [now apply usesb_uses|].
  split; [exact Hn|]. rewrite K1. split; [exact K2|]. intros H. apply elem_of_list_singleton in H. discriminate.
Qed.
(** 3. Bottom up, "Nodes created during traversal are never visited"
    (traverser.hpp:248-253) is wrong: onNodeCreate calls markAsVisited, which has
    no effect on a node that is not in the frontier, so the node is visited as soon
    as its users have been. *)
Definition one_node : region := region_of [CAddArgument 1 5; CCreateSimple 10 [5] [1] [12] [(11, 5)]; CAddResult 4 11 5].
Definition f3_steps : list (option command) := [Some (CCreateSimple 30 [5] [1] [31] [(32, 5)]); Some (CDivertTo 4 32); None].
Lemma f3_check : match bu_script one_node f3_steps with
  | Some (s, ids) => match bu_next s with (Some n, s') => bool_decide (n = 30 /\ id_at s.1 30 = Some (next_id one_node)) | _ => false end
  | None => false end = true.
Proof. vm_compute. reflexivity. Qed.
Theorem bottom_up_visits_new_node_refuted :
  exists r0 s ids n s' nd, built r0 /\ bu_run anything r0 s ids /\ bu_next s = (Some n, s') /\ nodes s.1 !! n = Some nd /\ nd_id nd = next_id r0.
Proof.
  pose proof f3_check as K. destruct (bu_script _ _) as [[s ids]|] eqn:E; [|discriminate]. destruct (bu_next s) as [[n|] s'] eqn:En; [|discriminate].
  apply bool_decide_eq_true in K as (-> & K1). unfold id_at in K1. destruct (nodes s.1 !! 30) as [nd|] eqn:Hn; [|discriminate]. cbn in K1. injection K1 as K1.
  exists one_node, s, ids, 30, s', nd. split; [apply region_of_built|]. split; [exact (bu_script_run anything _ _ _ _ ltac:(intros; exact I) E)|]. auto.
Qed.
(** 4. For the same reason the predecessors of such a node are activated twice,
    and may be visited before their users. *)
Definition chain : region := region_of [CCreateSimple 10 [] [] [] [(11, 5)]; CCreateSimple 20 [5] [11] [21] [(22, 5)]; CCreateSimple 30 [5] [22] [31] [(32, 5)]; CCreateSimple 40 [5] [32] [41] [(42, 5)]; CAddResult 4 42 5].
Definition f4_steps : list (option command) := [Some (CCreateSimple 50 [5] [11] [51] [(52, 5)]); Some (CAddResult 5 52 5); None; None; None].
Lemma f4_check : match bu_script chain f4_steps with
  | Some (s, ids) => match bu_next s with (Some n, s') => bool_decide (n = 10 /\ id_at s.1 20 = Some 1 /\ ids = [3; 4; 2]) && usesb s.1 20 10 | _ => false end
  | None => false end = true.
Proof. vm_compute. reflexivity. Qed.
Theorem bottom_up_visits_early_refuted :
  exists r0 s ids n s' m md, built r0 /\ bu_run anything r0 s ids /\ bu_next s = (Some n, s') /\ uses s.1 m n /\ nodes s.1 !! m = Some md /\ nd_id md < next_id r0 /\ nd_id md ∉ ids.
Proof.
  pose proof f4_check as K. destruct (bu_script _ _) as [[s ids]|] eqn:E; [|discriminate]. destruct (bu_next s) as [[n|] s'] eqn:En; [|discriminate].
  apply andb_true_iff in K as [K KA]. apply bool_decide_eq_true in K as (-> & K1 & ->). unfold id_at in K1. destruct (nodes s.1 !! 20) as [nd|] eqn:Hn; [|discriminate]. cbn in K1. injection K1 as K1.
  exists chain, s, [3; 4; 2], 10, s', 20, nd. split; [apply region_of_built|]. split; [exact (bu_script_run anything _ _ _ _ ltac:(intros; exact I) E)|]. split; [exact En|]. split; [now apply usesb_uses|].
  split; [exact Hn|]. rewrite K1. split; [vm_compute; lia|]. intros H. repeat (apply elem_of_cons in H as [H|H]; [discriminate H|]). inversion H.
Qed.
(** 5. A node that loses its readiness to a new node is not visited at all. *)
Definition two_sources : region := region_of [CCreateSimple 10 [] [] [] [(11, 5)]; CCreateSimple 20 [] [] [] [(21, 5)]].
Definition f5_steps : list (option command) := [Some (CCreateSimple 30 [5] [11] [31] []); Some (CDivertTo 31 21); None].
Lemma f5_check : match bu_script two_sources f5_steps with
  | Some (s, ids) => match bu_next s with (None, s') => bool_decide (id_at s.1 20 = Some 1 /\ ids = [0]) && acyclicb s.1 | _ => false end
  | None => false end = true.
Proof. vm_compute. reflexivity. Qed.
Theorem bottom_up_misses_node_refuted :
  exists r0 s ids s' n nd, built r0 /\ bu_run anything r0 s ids /\ bu_next s = (None, s') /\ nodes s.1 !! n = Some nd /\ nd_id nd < next_id r0 /\ nd_id nd ∉ ids.
Proof.
  pose proof f5_check as K. destruct (bu_script _ _) as [[s ids]|] eqn:E; [|discriminate]. destruct (bu_next s) as [[n|] s'] eqn:En; [discriminate|].
  apply andb_true_iff in K as [K KA]. apply bool_decide_eq_true in K as (K1 & ->). unfold id_at in K1. destruct (nodes s.1 !! 20) as [nd|] eqn:Hn; [|discriminate]. cbn in K1. injection K1 as K1.
  exists two_sources, s, [0], s', 20, nd. split; [apply region_of_built|]. split; [exact (bu_script_run anything _ _ _ _ ltac:(intros; exact I) E)|]. split; [exact En|].
  split; [exact Hn|]. rewrite K1. split; [vm_compute; lia|]. intros H. apply elem_of_list_singleton in H. discriminate.
Qed.

(** ** the hypotheses can be met *)
Lemma chain_acyclic : acyclic chain.
Proof. apply acyclicb_acyclic; [apply built_Inv, region_of_built|vm_compute; reflexivity]. Qed.
Lemma chain_check : bool_decide (td_nodes chain = Some [10; 20; 30; 40]) && bool_decide (bu_nodes chain = Some [40; 30; 20; 10]) = true.
Proof. vm_compute. reflexivity. Qed.
Example traversal_of_chain : built chain /\ acyclic chain /\ td_nodes chain = Some [10; 20; 30; 40] /\ bu_nodes chain = Some [40; 30; 20; 10].
Proof.
  pose proof chain_check as K. apply andb_true_iff in K as [K1 K2]. apply bool_decide_eq_true in K1, K2. split; [apply region_of_built|]. split; [apply chain_acyclic|]. auto.
Qed.
(** edited traversals: after the first visit, the users of the second node are
    diverted to the first and the second is removed; a new node is added *)
Definition ex_steps : list (option command) := [None; Some (CDivertUsers 22 11); Some (CRemoveNode 20); Some (CCreateSimple 50 [5] [11] [51] [(52, 5)]); None; None].
Lemma ex_check : match td_script 20 chain ex_steps with
  | Some (s, ids) => match td_next (next_id chain) 20 s with Some (None, s') => bool_decide (ids = [0; 2; 3] /\ id_at s.1 20 = None /\ id_at s.1 50 = Some 4) && acyclicb s.1 | _ => false end
  | None => false end = true.
Proof. vm_compute. reflexivity. Qed.
Example edited_top_down : exists s s', td_run one_at_a_time chain s [0; 2; 3] /\ td_next (next_id chain) 20 s = Some (None, s') /\ acyclic s.1 /\ ~ is_node s.1 20 /\ is_node s.1 50.
Proof.
  pose proof ex_check as K. destruct (td_script _ _ _) as [[s ids]|] eqn:E; [|discriminate]. destruct (td_next _ _ s) as [[[?|] s']|] eqn:En; [discriminate| |discriminate].
  apply andb_true_iff in K as [K KA]. apply bool_decide_eq_true in K as (-> & K1 & K2). unfold id_at in K1, K2.
  assert (td_run one_at_a_time chain s [0; 2; 3]) as HR.
  { apply (td_script_run one_at_a_time 20 _ ex_steps); [|exact E]. intros c r H. unfold ex_steps in H. repeat (apply elem_of_cons in H as [H|H]; [try discriminate H; injection H as ->; exact I|]). inversion H. }
  exists s, s'. split; [exact HR|]. split; [exact En|]. split.
  - apply acyclicb_acyclic; [|exact KA]. apply (td_run_RI true one_at_a_time chain s _ (region_of_built _) ltac:(auto) HR).
  - unfold is_node. destruct (nodes s.1 !! 20); [discriminate|]. destruct (nodes s.1 !! 50); [|discriminate]. split; [intros [? ?]; discriminate|eexists; reflexivity].
Qed.
Definition ex2_steps : list (option command) := [None; Some (CDivertUsers 32 22); Some (CRemoveNode 30); None; None].
Lemma ex2_check : match bu_script chain ex2_steps with
  | Some (s, ids) => match bu_next s with (None, s') => bool_decide (ids = [3; 1; 0] /\ id_at s.1 30 = None) && acyclicb s.1 | _ => false end
  | None => false end = true.
Proof. vm_compute. reflexivity. Qed.
Example edited_bottom_up : exists s s', bu_run no_creation chain s [3; 1; 0] /\ bu_next s = (None, s') /\ acyclic s.1 /\ ~ is_node s.1 30.
Proof.
  pose proof ex2_check as K. destruct (bu_script _ _) as [[s ids]|] eqn:E; [|discriminate]. destruct (bu_next s) as [[?|] s'] eqn:En; [discriminate|].
  apply andb_true_iff in K as [K KA]. apply bool_decide_eq_true in K as (-> & K1). unfold id_at in K1.
  assert (bu_run no_creation chain s [3; 1; 0]) as HR.
  { apply (bu_script_run no_creation _ ex2_steps); [|exact E]. intros c r H. unfold ex2_steps in H. repeat (apply elem_of_cons in H as [H|H]; [try discriminate H; injection H as ->; exact I|]). inversion H. }
  exists s, s'. split; [exact HR|]. split; [exact En|]. split.
  - apply acyclicb_acyclic; [|exact KA]. apply (bu_run_RI no_creation chain s _ (region_of_built _) ltac:(auto) HR).
  - unfold is_node. destruct (nodes s.1 !! 30); [discriminate|]. intros [? ?]. discriminate.
Qed.
