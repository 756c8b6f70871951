(** Hoisting one node along a path. *)
From stdpp Require Import base list gmap.
From Coq Require Import ZArith Lia.
From Verif.LocalRegion Require Import Model Spec Facts.
From Verif.Unswitch Require Import Model Spec Proofs1 Proofs2 Proofs3.
From Verif.Sinking Require Import Spec.
From Verif.Hoisting Require Import Model Spec Proofs1.
Open Scope nat_scope.

Lemma route_args w j news r : rargs (route w j news r) = rargs r.
Proof. destruct w as [|[i k] w]; cbn [route]; [|done]. by destruct (rnodes r !! j). Qed.
Lemma rnodes_names r n x : deep r -> n ∈ rnodes r -> x ∈ nins n ++ nouts n -> x ∈ names r.
Proof. intros Hd Hn Hx. apply elem_of_app in Hx as [Hx|Hx]; [destruct (deep_wf r Hd) as (_ & Hu & _); by eapply Hu|]. apply elem_of_app. right. apply elem_all_outs. by exists n. Qed.

Section Sem.
  Context (other : nat -> list val -> option (list val)) (content : val -> val).
  Notation hold := (hold other content).
  Notation holds := (holds other content).
  Notation runs := (runs other content).

  Lemma route_fwd w : forall j r news o ins outs xs rho, deep r -> node_at w j r = Some (Node (KSimple o) ins outs) -> operands no_mem w j r = Some xs -> (forall x, x ∈ news -> x ∈ names r) ->
    length news = length outs -> op_sem other o (map rho xs) = Some (map rho news) -> hold rho (rnodes r) ->
    exists rho', (forall x, x ∈ names r -> rho' x = rho x) /\ hold rho' (rnodes (route w j news r)) /\ map rho' (rres (route w j news r)) = map rho (rres r).
  Proof.
    induction w as [|[i k] w IH]; intros j r news o ins outs xs rho Hd Hat Hops Hnews Hlen Ho Hh; cbn [node_at operands route] in *.
    - rewrite Hat in Hops |- *. injection Hops as <-. cbn [nouts nins rnodes rres] in *. exists rho. split; [done|]. apply (hold_at other content rho _ _ _ Hat) in Hh as [Hn Hh]. unfold Spec.holds in Hn. cbn [nkind nins nouts] in Hn. inversion Hn as [o' vs' us' Ho' | |]; subst o' vs' us'. rewrite Ho in Ho'. injection Ho' as Ev.
      assert (No : NoDup outs). { destruct (deep_wf r Hd) as (Hnd & _). apply NoDup_app in Hnd as (_ & _ & Hnd). rewrite (all_outs_perm _ _ (delete_Permutation _ _ _ Hat)), all_outs_cons in Hnd. by apply NoDup_app in Hnd as (? & _). }
      assert (Ed : forall l, map rho (map (divert outs news) l) = map rho l) by (intros l; apply divert_map; done). split; [|apply Ed].
      intros n' Hn'. apply elem_of_list_In, in_map_iff in Hn' as (n & <- & Hn'%elem_of_list_In). specialize (Hh n Hn'). unfold Spec.holds in Hh |- *. cbn [divert_node nkind nins nouts]. by rewrite Ed.
    - apply bind_Some in Hat as (N & HN & Hat). apply bind_Some in Hat as (s & Hs & Hat). rewrite HN in Hops. cbn [mbind option_bind] in Hops. rewrite Hs in Hops. cbn [mbind option_bind] in Hops. apply bind_Some in Hops as (ys & Hys & Hxs).
      assert (HNin : N ∈ rnodes r) by (by eapply elem_of_list_lookup_2). assert (Hds : deep s) by (eapply deep_body; [done | done | by eapply elem_of_list_lookup_2]).
      apply (hold_at other content rho _ _ _ HN) in Hh as [HhN Hh]. set (next := region_bound r). set (m := length news). set (nv := map rho news). exists (sets rho (seq next m) nv). cbn [rnodes rres].
      assert (Hlow : forall x, x ∈ names r -> x ∉ seq next m) by (intros x Hx Hin; apply region_bound_ok in Hx; apply seq_new in Hin; unfold next in Hin; lia).
      split; [|split].
      + intros x Hx. by apply sets_out, Hlow.
      + apply (hold_alter other content _ _ _ _ _ HN). split.
        * eapply (node_fwd other content); [apply route_args | exact (deep_node r N Hd HNin) | intros b Hb; apply deep_wf; exact (deep_body r N b Hd HNin Hb) | exact Hs | exact Hxs | | | exact Ho | exact HhN].
          { intros x Hx. rewrite app_assoc in Hx. apply region_bound_ok. apply elem_of_app in Hx as [Hx|Hx]; [by eapply rnodes_names | by apply Hnews]. }
          intros rho1 nv1 Hl1 Ho1 Hh1 Ea. destruct (IH j (add_args s (seq (region_bound s) m)) (seq (region_bound s) m) o ins outs ys rho1) as (rho' & E1 & E2 & E3).
          { by apply add_args_deep. }
          { rewrite <- Hat. destruct s as [A l res]. apply node_at_args. }
          { rewrite <- Hys. destruct s as [A l res]. apply operands_args. }
          { intros x Hx. apply elem_of_app. left. apply elem_of_app. by right. }
          { by rewrite seq_length. }
          { rewrite Ho1. f_equal. symmetry. exact Ea. }
          { done. }
          exists rho'. split; [|split; [exact E2 | exact E3]]. apply map_ext_in. intros x Hx%elem_of_list_In. apply E1. apply elem_of_app. by left.
        * eapply hold_ext; [|exact Hh]. intros n y Hn Hy. symmetry. apply sets_out, Hlow. eapply rnodes_names; [done| |exact Hy]. apply elem_delete in Hn as (t & _ & Ht). by eapply elem_of_list_lookup_2.
      + apply sets_map_out. intros x Hx. apply Hlow. destruct (deep_wf r Hd) as (_ & _ & Hr). by apply Hr.
  Qed.
  Lemma route_bwd w : forall j r news o ins outs xs rho, deep r -> node_at w j r = Some (Node (KSimple o) ins outs) -> operands no_mem w j r = Some xs -> (forall x, x ∈ news -> x ∈ names r) -> (w = [] -> forall x, x ∈ news -> x ∈ rargs r) ->
    length news = length outs -> op_sem other o (map rho xs) = Some (map rho news) -> hold rho (rnodes (route w j news r)) ->
    exists rho', (forall x, x ∈ rargs r -> rho' x = rho x) /\ hold rho' (rnodes r) /\ map rho' (rres r) = map rho (rres (route w j news r)).
  Proof.
    induction w as [|[i k] w IH]; intros j r news o ins outs xs rho Hd Hat Hops Hnews Hargs Hlen Ho Hh; cbn [node_at operands route] in *.
    - rewrite Hat in Hops, Hh |- *. injection Hops as <-. cbn [nouts nins rnodes rres] in *. specialize (Hargs eq_refl). assert (Hin : Node (KSimple o) ins outs ∈ rnodes r) by (by eapply elem_of_list_lookup_2).
      destruct (deep_wf r Hd) as (Hnd & Hu & Hr). apply NoDup_app in Hnd as (Na & Hao & Hnd). rewrite (all_outs_perm _ _ (delete_Permutation _ _ _ Hat)), all_outs_cons in Hnd. apply NoDup_app in Hnd as (No & Hoo & _). cbn [nouts] in No, Hoo.
      assert (Hout : forall x, x ∈ outs -> x ∈ all_outs (rnodes r)) by (intros x Hx; apply elem_all_outs; eexists; split; [exact Hin | done]).
      set (rho' := sets rho outs (map rho news)). exists rho'.
      assert (Eargs : forall x, x ∈ rargs r -> rho' x = rho x) by (intros x Hx; apply sets_out; intros Hx'; apply (Hao x Hx); by apply Hout).
      assert (Ed : forall l, map rho (map (divert outs news) l) = map rho' l). { intros l. apply divert_map; [done | done | |]. - intros x _ Hx. symmetry. by apply sets_out. - unfold rho'. rewrite sets_map; [done | done | by rewrite map_length]. }
      split; [done|]. split; [|by rewrite Ed]. apply (hold_at other content rho' _ _ _ Hat). split.
      + unfold Spec.holds. cbn [nkind nins nouts]. constructor. unfold rho'. rewrite sets_map_out, sets_map; [done | done | by rewrite map_length|]. destruct Hd as [r0 _ [rank [Hk _]] _ _]. intros x Hx Hx'. specialize (Hk _ x x Hin Hx Hx'). lia.
      + intros n Hn. assert (Hn' : divert_node (divert outs news) n ∈ map (divert_node (divert outs news)) (delete j (rnodes r))) by (apply elem_of_list_In, in_map, elem_of_list_In; done). specialize (Hh _ Hn'). unfold Spec.holds in Hh |- *. cbn [divert_node nkind nins nouts] in Hh. rewrite Ed in Hh.
        replace (map rho' (nouts n)) with (map rho (nouts n)); [done|]. apply map_ext_in. intros x Hx%elem_of_list_In. symmetry. apply sets_out. intros Hx'. apply (Hoo x Hx'). apply elem_all_outs. by exists n.
    - apply bind_Some in Hat as (N & HN & Hat). apply bind_Some in Hat as (s & Hs & Hat). rewrite HN in Hops. cbn [mbind option_bind] in Hops. rewrite Hs in Hops. cbn [mbind option_bind] in Hops. apply bind_Some in Hops as (ys & Hys & Hxs).
      assert (HNin : N ∈ rnodes r) by (by eapply elem_of_list_lookup_2). assert (Hds : deep s) by (eapply deep_body; [done | done | by eapply elem_of_list_lookup_2]).
      cbn [rnodes rres] in Hh |- *. apply (hold_alter other content _ _ _ _ _ HN) in Hh as [HhN Hh]. exists rho. split; [done|]. split; [|done]. apply (hold_at other content rho _ _ _ HN). split; [|done].
      eapply (node_bwd other content); [apply route_args | exact (deep_node r N Hd HNin) | intros b Hb; apply deep_wf; exact (deep_body r N b Hd HNin Hb) | exact Hs | exact Hxs | | | exact Ho | exact HhN].
      { intros x Hx. rewrite app_assoc in Hx. apply region_bound_ok. apply elem_of_app in Hx as [Hx|Hx]; [by eapply rnodes_names | by apply Hnews]. }
      intros rho1 nv1 Hl1 Ho1 Hh1 Ea. set (m := length news) in *. destruct (IH j (add_args s (seq (region_bound s) m)) (seq (region_bound s) m) o ins outs ys rho1) as (rho' & E1 & E2 & E3).
      { by apply add_args_deep. }
      { rewrite <- Hat. destruct s as [A l res]. apply node_at_args. }
      { rewrite <- Hys. destruct s as [A l res]. apply operands_args. }
      { intros x Hx. apply elem_of_app. left. apply elem_of_app. by right. }
      { intros _ x Hx. apply elem_of_app. by right. }
      { by rewrite seq_length. }
      { rewrite Ho1. f_equal. symmetry. exact Ea. }
      { done. }
      exists rho'. split; [|split; [exact E2 | exact E3]]. apply map_ext_in. intros x Hx%elem_of_list_In. by apply E1.
  Qed.
End Sem.
