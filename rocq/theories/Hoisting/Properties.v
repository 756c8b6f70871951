(** Node hoisting: what it keeps, and what it does not. *)
From stdpp Require Import base list gmap.
From Coq Require Import ZArith Lia.
From Verif.LocalRegion Require Import Model Spec Facts Run.
From Verif.Unswitch Require Import Model Spec Proofs1.
From Verif.Sinking Require Import Spec.
From Verif.Hoisting Require Import Model Spec Proofs1 Proofs2 Proofs3 Proofs4.
Open Scope nat_scope.

Lemma inside_unique r w s : inside r w s -> forall s', inside r w s' -> s = s'.
Proof. induction 1 as [r|r i k n s0 w s Hn Hs Hin IH]; intros s' H; inversion H as [|r0 i0 k0 n' s1 w0 s2 Hn' Hs' Hin']; subst; [done|]. rewrite Hn in Hn'. injection Hn' as <-. rewrite Hs in Hs'. injection Hs' as <-. by apply IH. Qed.
Section Properties.
  Context (other : nat -> list val -> option (list val)) (content : val -> val).
  Notation same := (same other content).
  (** the node j of the region at path w inside the region s is computed before, and defined in every execution of s *)
  Definition defined_before (s : region) (w : list (nat * nat)) (j : nat) : Prop :=
    forall o ins outs xs, node_at w j s = Some (Node (KSimple o) ins outs) -> operands no_mem w j s = Some xs -> defined_in other content s o xs (length outs).
  (** C93: what the hoisted region computes, the original one computes as well; the graph stays well-formed *)
  Theorem hoist_sound at_ w j r r' : deep r -> hoist_at no_mem at_ w j r = Some r' -> refines other content r' r /\ deep r' /\ rargs r' = rargs r /\ rres r' = rres r.
  Proof. intros Hd H. destruct (hoist_at_ok other content at_ w j r r' Hd H) as (s & s' & _ & _ & _ & H1 & H2 & H3 & H4 & _). done. Qed.
  (** C93: the same is computed if the operation is defined wherever it is moved to *)
  Theorem hoist_preserves_partial at_ w j r r' s : deep r -> hoist_at no_mem at_ w j r = Some r' -> inside r at_ s -> defined_before s w j -> same r r'.
  Proof.
    intros Hd H Hin Hdef. destruct (hoist_at_ok other content at_ w j r r' Hd H) as (s0 & s0' & Hin0 & Hh & Hds & _ & _ & _ & H4 & H5). rewrite (inside_unique _ _ _ Hin _ Hin0) in *. destruct (hoist_ok other content w j s0 s0' Hds Hh) as (_ & _ & _ & _ & H6).
    apply hoist_parts in Hh as (i & k & w' & o & ins & outs & xs & -> & Hat & Hops & _). specialize (H6 o ins outs xs Hat Hops (Hdef o ins outs xs Hat Hops)). intros vs ws. split; [by apply H5 | by apply H4].
  Qed.
  (** C94: a node that is moved out of loops only: the same is computed, whatever the operation *)
  Theorem hoist_from_loops at_ w j r r' s : deep r -> hoist_at no_mem at_ w j r = Some r' -> inside r at_ s -> loops_only s w -> same r r'.
  Proof.
    intros Hd H Hin Hlo. eapply hoist_preserves_partial; [done..|]. intros o ins outs xs Hat Hops rho Hh. destruct (hoist_at_ok other content at_ w j r r' Hd H) as (s0 & _ & Hin0 & _ & Hds & _). rewrite (inside_unique _ _ _ Hin _ Hin0) in *. by eapply loops_reach.
  Qed.
  (** any number of nodes, in any order *)
  Inductive hoists : region -> region -> Prop :=
    | hoists_done r : hoists r r
    | hoists_step r at_ w j s r' r'' : hoist_at no_mem at_ w j r = Some r' -> inside r at_ s -> loops_only s w \/ defined_before s w j -> hoists r' r'' -> hoists r r''.
  Theorem hoists_preserve_partial r r' : hoists r r' -> deep r -> same r r' /\ deep r'.
  Proof.
    induction 1 as [r|r at_ w j s r' r'' H Hin Hc _ IH]; intros Hd; [split; [intros vs ws|]; done|]. destruct (hoist_sound _ _ _ _ _ Hd H) as (_ & Hd' & _). destruct (IH Hd') as [Hs Hd'']. split; [|done].
    assert (H1 : same r r') by (destruct Hc; [by eapply hoist_from_loops | by eapply hoist_preserves_partial]). intros vs ws. by rewrite (H1 vs ws).
  Qed.
  (** constants can be moved anywhere *)
  Theorem constant_defined s w j : (exists w' v outs, node_at w j s = Some (Node (KSimple (OInt w' v)) [] outs) /\ length outs = 1) -> defined_before s w j.
  Proof.
    intros (w' & v & outs & Hat & Hl) o ins outs' xs Hat' Hops rho _. rewrite Hat in Hat'. injection Hat' as <- <- <-. assert (Ex : xs = []); [|subst xs; exists [VInt w' v]; by rewrite Hl].
    clear Hl. revert s xs Hat Hops. induction w as [|[i k] w IH]; intros s xs Hat Hops; cbn [node_at operands] in *.
    - rewrite Hat in Hops. by injection Hops.
    - apply bind_Some in Hat as (n & Hn & Hat). apply bind_Some in Hat as (b & Hb & Hat). rewrite Hn in Hops. cbn [mbind option_bind] in Hops. rewrite Hb in Hops. cbn [mbind option_bind] in Hops. apply bind_Some in Hops as (ys & Hys & Hxs). rewrite (IH b ys Hat Hys) in Hxs. by injection Hxs.
  Qed.
End Properties.

(** a product of invariant values in a loop inside a loop *)
Definition inner : region := Region [0; 1; 2] [Node (KSimple (OOther 1)) [0; 1] [3]; Node (KSimple (OOther 2)) [3; 2] [4]; Node (KSimple (OOther 3)) [4] [5]] [5; 0; 1; 4].
Definition outer : region := Region [0; 1; 2] [Node (KTheta inner) [0; 1; 2] [3; 4; 5]; Node (KSimple (OOther 3)) [5] [6]] [6; 0; 1; 5].
Definition nest : region := Region [0; 1; 2] [Node (KTheta outer) [0; 1; 2] [3; 4; 5]] [5].
Definition inner' : region := Region [0; 1; 2; 6] [Node (KSimple (OOther 2)) [6; 2] [4]; Node (KSimple (OOther 3)) [4] [5]] [5; 0; 1; 4; 6].
Definition outer' : region := Region [0; 1; 2; 7] [Node (KTheta inner') [0; 1; 2; 7] [3; 4; 5; 8]; Node (KSimple (OOther 3)) [5] [6]] [6; 0; 1; 5; 7].
Example example_hoisted : hoist_at no_mem [] [(0, 0); (0, 0)] 0 nest = Some (Region [0; 1; 2] [Node (KTheta outer') [0; 1; 2; 6] [3; 4; 5; 7]; Node (KSimple (OOther 1)) [0; 1] [6]] [5]).
Proof. vm_compute. reflexivity. Qed.
Example example_stays : hoist_at no_mem [] [(0, 0); (0, 0)] 1 nest = None.
Proof. vm_compute. reflexivity. Qed.
Example example_loops : loops_only nest [(0, 0); (0, 0)].
Proof. repeat (eapply lo_there; [reflexivity|]). constructor. Qed.
Ltac by_computation := solve [refine (bool_decide_unpack _ _); vm_compute; exact I].
Lemma all_in (l k : list nat) : bool_decide (Forall (fun x => x ∈ k) l) = true -> forall x, x ∈ l -> x ∈ k.
Proof. intros H%bool_decide_eq_true x Hx. rewrite Forall_forall in H. auto. Qed.
Lemma wf_decide r : bool_decide (NoDup (names r)) && forallb (fun n => bool_decide (Forall (fun x => x ∈ names r) (nins n))) (rnodes r) && bool_decide (Forall (fun x => x ∈ names r) (rres r)) = true -> wf_region r.
Proof. intros [[H1%bool_decide_eq_true H2]%andb_true_iff H3]%andb_true_iff. split; [done|]. split; [|by apply all_in]. intros n x Hn Hx. rewrite forallb_forall in H2. apply elem_of_list_In in Hn. by apply (all_in _ _ (H2 n Hn)). Qed.
Lemma acyclic_decide r : forallb (fun n => forallb (fun y => forallb (fun x => x <? y) (nins n ++ rargs r)) (nouts n)) (rnodes r) = true -> acyclic r.
Proof.
  intros H. exists (fun x => x). assert (H' : forall n x y, n ∈ rnodes r -> x ∈ nins n ++ rargs r -> y ∈ nouts n -> x < y).
  { intros n x y Hn%elem_of_list_In Hx%elem_of_list_In Hy%elem_of_list_In. rewrite forallb_forall in H. specialize (H n Hn). rewrite forallb_forall in H. specialize (H y Hy). rewrite forallb_forall in H. specialize (H x Hx). by apply Nat.ltb_lt. }
  split; [intros n x y Hn Hx Hy; apply (H' n); [done | apply elem_of_app; by left | done] | intros a n y Ha Hn Hy; apply (H' n); [done | apply elem_of_app; by right | done]].
Qed.
Lemma simple_deep r : wf_region r -> acyclic r -> forallb (fun n => match nkind n with KSimple _ => true | _ => false end) (rnodes r) = true -> deep r.
Proof.
  intros Hw Ha Hs. rewrite forallb_forall in Hs. constructor; [done | done | |].
  - intros n Hn%elem_of_list_In%Hs. unfold wf_node. by destruct (nkind n).
  - intros n b Hn%elem_of_list_In%Hs Hb. unfold bodies in Hb. destruct (nkind n); [by apply elem_of_nil in Hb | done | done].
Qed.
Lemma inner_deep : deep inner.
Proof. apply simple_deep; [by apply wf_decide | by apply acyclic_decide | done]. Qed.
Lemma outer_deep : deep outer.
Proof.
  constructor; [by apply wf_decide | by apply acyclic_decide | |].
  - intros n Hn. apply elem_of_cons in Hn as [->|Hn]; [by cbn|]. by apply elem_of_list_singleton in Hn as ->.
  - intros n b Hn Hb. apply elem_of_cons in Hn as [->|Hn]; [apply elem_of_list_singleton in Hb as ->; apply inner_deep|]. apply elem_of_list_singleton in Hn as ->. by apply elem_of_nil in Hb.
Qed.
Example example_deep : deep nest.
Proof.
  constructor; [by apply wf_decide | by apply acyclic_decide | |].
  - intros n Hn. by apply elem_of_list_singleton in Hn as ->.
  - intros n b Hn Hb. apply elem_of_list_singleton in Hn as ->. apply elem_of_list_singleton in Hb as ->. apply outer_deep.
Qed.

(** a division that is guarded by a gamma node is done in any case after hoisting (C93 does not hold without the condition of hoist_preserves_partial) *)
Definition divide (id : nat) (vs : list val) : option (list val) := match vs with [VInt w a; VInt _ b] => if decide (b = 0%Z) then None else Some [VInt w (a / b)] | _ => None end.
Definition guarded : region := Region [0; 1; 2] [Node (KGamma [Region [0; 1; 2] [Node (KSimple (OOther 0)) [1; 2] [3]] [3]; Region [0; 1; 2] [] [1]]) [0; 1; 2] [3]] [3].
Lemma guarded_deep : deep guarded.
Proof.
  assert (H1 : deep (Region [0; 1; 2] [Node (KSimple (OOther 0)) [1; 2] [3]] [3])) by (apply simple_deep; [by apply wf_decide | by apply acyclic_decide | done]).
  assert (H2 : deep (Region [0; 1; 2] [] [1])) by (apply simple_deep; [by apply wf_decide | by apply acyclic_decide | done]).
  constructor; [by apply wf_decide | by apply acyclic_decide | |].
  - intros n Hn. apply elem_of_list_singleton in Hn as ->. split; [cbn; lia|]. intros r Hr. apply elem_of_cons in Hr as [->|Hr]; [|apply elem_of_list_singleton in Hr as ->]; (split; [by apply deep_wf | done]).
  - intros n b Hn Hb. apply elem_of_list_singleton in Hn as ->. apply elem_of_cons in Hb as [->|Hb]; [done|]. by apply elem_of_list_singleton in Hb as ->.
Qed.
Theorem hoist_preserves_refuted : exists other content r r', deep r /\ hoist_at no_mem [] [(0, 0)] 0 r = Some r' /\ ~ same other content r r'.
Proof.
  exists divide, (fun v => v), guarded. eexists. split; [apply guarded_deep|]. split; [vm_compute; reflexivity|]. intros H. specialize (H [VCtl 1; VInt 8 5; VInt 8 0] [VInt 8 5]). destruct H as [H _]. cbn [decide] in H.
  assert (Hr : runs divide (fun v => v) guarded [VCtl 1; VInt 8 5; VInt 8 0] [VInt 8 5]) by (apply (run_sound _ _ 3); by vm_compute). specialize (H Hr). apply runs_iff in H as (rho & E & Hh & _). cbn [rargs map] in E. injection E as E0 E1 E2.
  specialize (Hh (Node (KSimple (OOther 0)) [1; 2] [4]) ltac:(right; left)). unfold holds in Hh. cbn [nkind nins nouts map] in Hh. rewrite E1, E2 in Hh. inversion Hh as [o vs ws Ho| |]. cbn in Ho. discriminate Ho.
Qed.
(** Memory states: the load is in a loop inside a loop, the store in another loop inside the same loop. The check of loop variables for memory states compares null pointers and the load is hoisted out of both, so that it
    no longer sees the stores of earlier iterations. Position 0 of every loop is the memory state *)
Definition memory_at (_ : region) (p : nat) : bool := p =? 0.
Definition machine (id : nat) (vs : list val) : option (list val) :=
  match id, vs with
  | 1, [VAny m] => Some [VAny m; VAny m]
  | 2, [VAny m] => Some [VAny (S m)]
  | 3, [VAny c] => Some [VAny (S c); VCtl (if c <? 1 then 1 else 0)]
  | _, _ => None
  end.
Definition load_loop : region := Region [0; 1] [Node (KSimple (OCtl 0)) [] [2]; Node (KSimple (OOther 1)) [0] [3; 4]] [2; 4; 3].
Definition store_loop : region := Region [0] [Node (KSimple (OCtl 0)) [] [1]; Node (KSimple (OOther 2)) [0] [2]] [1; 2].
Definition around : region := Region [0; 1; 2] [Node (KTheta load_loop) [0; 1] [3; 4]; Node (KTheta store_loop) [3] [5]; Node (KSimple (OOther 3)) [2] [6; 7]] [7; 5; 4; 6].
Definition loads : region := Region [0; 1; 2] [Node (KTheta around) [0; 1; 2] [3; 4; 5]] [4; 3].
Lemma loads_deep : deep loads.
Proof.
  assert (H1 : deep load_loop) by (apply simple_deep; [by apply wf_decide | by apply acyclic_decide | done]).
  assert (H2 : deep store_loop) by (apply simple_deep; [by apply wf_decide | by apply acyclic_decide | done]).
  assert (H3 : deep around).
  { constructor; [by apply wf_decide | by apply acyclic_decide | |].
    - intros n Hn. apply elem_of_cons in Hn as [->|Hn]; [by cbn|]. apply elem_of_cons in Hn as [->|Hn]; [by cbn|]. by apply elem_of_list_singleton in Hn as ->.
    - intros n b Hn Hb. apply elem_of_cons in Hn as [->|Hn]; [by apply elem_of_list_singleton in Hb as ->|]. apply elem_of_cons in Hn as [->|Hn]; [by apply elem_of_list_singleton in Hb as ->|]. apply elem_of_list_singleton in Hn as ->. by apply elem_of_nil in Hb. }
  constructor; [by apply wf_decide | by apply acyclic_decide | |].
  - intros n Hn. by apply elem_of_list_singleton in Hn as ->.
  - intros n b Hn Hb. apply elem_of_list_singleton in Hn as ->. by apply elem_of_list_singleton in Hb as ->.
Qed.
Theorem hoist_memory_refuted : exists other content mem r r', deep r /\ loops_only r [(0, 0); (0, 0)] /\ hoist_at mem [] [(0, 0); (0, 0)] 1 r = Some r' /\ ~ same other content r r'.
Proof.
  exists machine, (fun v => v), memory_at, loads. eexists. split; [apply loads_deep|]. split; [repeat (eapply lo_there; [reflexivity|]); constructor|]. split; [vm_compute; reflexivity|]. intros H.
  specialize (H [VAny 0; VAny 9; VAny 0] [VAny 1; VAny 2]). destruct H as [H _]. assert (Hr : runs machine (fun v => v) loads [VAny 0; VAny 9; VAny 0] [VAny 1; VAny 2]) by (apply (run_sound _ _ 9); by vm_compute). specialize (H Hr).
  match type of H with runs _ _ (Region ?A ?l ?res) _ _ => assert (H' : runs machine (fun v => v) (Region A (rev l) res) [VAny 0; VAny 9; VAny 0] [VAny 1; VAny 2]) end.
  { apply runs_iff in H as (rho & E1 & Hh & E2). apply runs_iff. exists rho. split; [exact E1|]. split; [|exact E2]. eapply hold_perm; [|exact Hh]. cbn [rnodes]. symmetry. apply Permutation_rev. }
  apply (run_unique _ _ 9 _ _ [VAny 0; VAny 1]) in H'; [discriminate H' | vm_compute; reflexivity].
Qed.
