(** Inlining along a path: what is computed. *)
From stdpp Require Import base list gmap.
From Coq Require Import ZArith Lia.
From Verif.LocalRegion Require Import Model Spec Facts.
From Verif.Unswitch Require Import Model Spec Proofs1 Proofs2 Proofs3.
From Verif.Sinking Require Import Spec.
From Verif.Hoisting Require Import Model Spec Proofs1 Proofs2.
From Verif.Inlining Require Import Model Spec Proofs1 Proofs2.
Open Scope nat_scope.

Lemma splice_shape bar ptr callee j deps r r' : splice bar ptr callee j deps r = Some r' -> rargs r' = rargs r /\ length (rres r') = length (rres r).
Proof. intros H. apply splice_parts in H as (id & fn & ops & outs & io & bs & tgts & copies & s & next' & news & [_ _ _ _ _ _ _ ->]). cbn [rargs rres]. by rewrite map_length. Qed.
Lemma inline_shape bar ptr callee w j deps r r' : inline bar ptr callee w j deps r = Some r' -> rargs r' = rargs r /\ length (rres r') = length (rres r).
Proof. destruct w as [|[i k] w]; cbn [inline]; [apply splice_shape|]. intros H. apply bind_Some in H as (n & _ & H). apply bind_Some in H as (s & _ & H). apply bind_Some in H as (s' & _ & [= <-]). done. Qed.
Lemma inside_node r w s j : inside r w s -> node_at w j r = rnodes s !! j.
Proof. induction 1 as [r|r i k n s0 w s Hn Hs Hin IH]; [done|]. cbn [node_at]. rewrite Hn. cbn. by rewrite Hs. Qed.

Section Sem.
  Context (other : nat -> list val -> option (list val)) (content : val -> val) (bar : nat) (ptr : nat -> bool).
  Notation hold := (hold other content).
  Context (callee : region) (id : nat) (cx : list val).
  Hypothesis Hcal : wf_region callee.
  Hypothesis Hbar : barrier other bar.
  Hypothesis Hcalls : calls other content id callee cx.
  Definition is_call (on : option node) : Prop := exists fn ops outs, on = Some (Node (KSimple (OOther id)) (fn :: ops) outs).
  Lemma spliced_call j deps r r' id' fn ops outs io bs tgts copies s next' news : spliced bar ptr callee j deps r r' id' fn ops outs io bs tgts copies s next' news -> is_call (rnodes r !! j) -> id' = id.
  Proof. intros [Hj _ _ _ _ _ _ _] (fn' & ops' & outs' & E). rewrite Hj in E. by injection E. Qed.
  Lemma inline_fwd w : forall j deps r r' rho, deep r -> (forall x, x ∈ deps -> x ∈ rargs r) -> is_call (node_at w j r) -> inline bar ptr callee w j deps r = Some r' -> hold rho (rnodes r) -> map rho deps = cx ->
    exists rho', (forall x, x ∈ names r -> rho' x = rho x) /\ hold rho' (rnodes r') /\ map rho' (rres r') = map rho (rres r).
  Proof using Hcal Hbar Hcalls.
    induction w as [|[i k] w IH]; intros j deps r r' rho Hd Hdeps Hcall H Hh Hcx; cbn [inline node_at] in *.
    - apply splice_parts in H as (id' & fn & ops & outs & io & bs & tgts & copies & s & next' & news & Hs). pose proof (spliced_call _ _ _ _ _ _ _ _ _ _ _ _ _ _ _ Hs Hcall) as ->. by eapply splice_fwd.
    - apply bind_Some in H as (N & HN & H). apply bind_Some in H as (s & Hs & H). apply bind_Some in H as (s' & Hs' & [= <-]). rewrite HN in Hcall. cbn [mbind option_bind] in Hcall. rewrite Hs in Hcall. cbn [mbind option_bind] in Hcall.
      assert (HNin : N ∈ rnodes r) by (by eapply elem_of_list_lookup_2). assert (Hds : deep s) by (eapply deep_body; [done | done | by eapply elem_of_list_lookup_2]).
      apply (hold_at other content rho _ _ _ HN) in Hh as [HhN Hh]. set (next := region_bound r). set (m := length deps) in *. exists (sets rho (seq next m) (map rho deps)). cbn [rnodes rres].
      assert (Hlow : forall x, x ∈ names r -> x ∉ seq next m) by (intros x Hx Hin; apply region_bound_ok in Hx; apply seq_new in Hin; unfold next in Hin; lia).
      split; [|split].
      + intros x Hx. by apply sets_out, Hlow.
      + apply (hold_alter other content _ _ _ _ _ HN). split.
        * eapply (node_fwd other content); [exact (proj1 (inline_shape _ _ _ _ _ _ _ _ Hs')) | exact (deep_node r N Hd HNin) | intros b Hb; apply deep_wf; exact (deep_body r N b Hd HNin Hb) | exact Hs | | | exact HhN].
          { intros x Hx. rewrite app_assoc in Hx. apply region_bound_ok. apply elem_of_app in Hx as [Hx|Hx]; [by eapply rnodes_names|]. apply elem_of_app. left. by apply Hdeps. }
          intros rho1 Hh1 Ea. rewrite map_length in Ea |- *. destruct (IH j (seq (region_bound s) m) (add_args s (seq (region_bound s) m)) s' rho1) as (rho' & E1 & E2 & E3); [by apply add_args_deep | | | done | done | exact (eq_trans Ea Hcx)|].
          { intros x Hx. apply elem_of_app. by right. }
          { destruct s as [A l res]. unfold add_args. cbn [rargs rnodes rres]. erewrite node_at_args. exact Hcall. }
          exists rho'. split; [|split; [exact E2 | exact E3]]. apply map_ext_in. intros x Hx%elem_of_list_In. apply E1. apply elem_of_app. by left.
        * eapply hold_ext; [|exact Hh]. intros n y Hn Hy. symmetry. apply sets_out, Hlow. eapply rnodes_names; [done| |exact Hy]. apply elem_delete in Hn as (t & _ & Ht). by eapply elem_of_list_lookup_2.
      + apply sets_map_out. intros x Hx. apply Hlow. destruct (deep_wf r Hd) as (_ & _ & Hr). by apply Hr.
  Qed.
  Lemma inline_bwd w : forall j deps r r' rho, deep r -> (forall x, x ∈ deps -> x ∈ rargs r) -> is_call (node_at w j r) -> inline bar ptr callee w j deps r = Some r' -> hold rho (rnodes r') -> map rho deps = cx ->
    exists rho', (forall x, x ∈ rargs r -> rho' x = rho x) /\ hold rho' (rnodes r) /\ map rho' (rres r) = map rho (rres r').
  Proof using Hcal Hbar Hcalls.
    induction w as [|[i k] w IH]; intros j deps r r' rho Hd Hdeps Hcall H Hh Hcx; cbn [inline node_at] in *.
    - apply splice_parts in H as (id' & fn & ops & outs & io & bs & tgts & copies & s & next' & news & Hs). pose proof (spliced_call _ _ _ _ _ _ _ _ _ _ _ _ _ _ _ Hs Hcall) as ->. by eapply splice_bwd.
    - apply bind_Some in H as (N & HN & H). apply bind_Some in H as (s & Hs & H). apply bind_Some in H as (s' & Hs' & [= <-]). rewrite HN in Hcall. cbn [mbind option_bind] in Hcall. rewrite Hs in Hcall. cbn [mbind option_bind] in Hcall.
      assert (HNin : N ∈ rnodes r) by (by eapply elem_of_list_lookup_2). assert (Hds : deep s) by (eapply deep_body; [done | done | by eapply elem_of_list_lookup_2]).
      cbn [rnodes rres] in Hh |- *. apply (hold_alter other content _ _ _ _ _ HN) in Hh as [HhN Hh]. exists rho. split; [done|]. split; [|done]. apply (hold_at other content rho _ _ _ HN). split; [|done].
      eapply (node_bwd other content); [exact (proj1 (inline_shape _ _ _ _ _ _ _ _ Hs')) | exact (deep_node r N Hd HNin) | intros b Hb; apply deep_wf; exact (deep_body r N b Hd HNin Hb) | exact Hs | | | exact HhN].
      { intros x Hx. rewrite app_assoc in Hx. apply region_bound_ok. apply elem_of_app in Hx as [Hx|Hx]; [by eapply rnodes_names|]. apply elem_of_app. left. by apply Hdeps. }
      intros rho1 Hh1 Ea. set (m := length deps) in *. rewrite map_length in Ea |- *. fold m in Ea |- *. destruct (IH j (seq (region_bound s) m) (add_args s (seq (region_bound s) m)) s' rho1) as (rho' & E1 & E2 & E3); [by apply add_args_deep | | | done | done | exact (eq_trans Ea Hcx)|].
      { intros x Hx. apply elem_of_app. by right. }
      { destruct s as [A l res]. unfold add_args. cbn [rargs rnodes rres]. erewrite node_at_args. exact Hcall. }
      exists rho'. split; [|split; [exact E2 | exact E3]]. apply map_ext_in. intros x Hx%elem_of_list_In. by apply E1.
  Qed.
  (** with new context variables for the callee's *)
  Lemma inline_call_same w j r r' : deep r -> call_at r w j id -> inline_call bar ptr callee (length cx) w j r = Some r' -> same_with other content cx r r' /\ rargs r' = rargs r ++ seq (region_bound r) (length cx).
  Proof using Hcal Hbar Hcalls.
    intros Hd (s & fn & ops & outs & Hin & Hj) H. unfold inline_call in H. set (a := seq (region_bound r) (length cx)) in *. destruct (inline_shape _ _ _ _ _ _ _ _ H) as [Ea _]. cbn [add_args rargs] in Ea. split; [|exact Ea].
    assert (Hd' : deep (add_args r a)) by (by apply add_args_deep). assert (Hdeps : forall x, x ∈ a -> x ∈ rargs (add_args r a)) by (intros x Hx; apply elem_of_app; by right).
    assert (Hcall : is_call (node_at w j (add_args r a))). { destruct r as [A l res]. unfold add_args. cbn [rargs rnodes rres]. rewrite (node_at_args w j _ _ _ A res). rewrite (inside_node _ _ _ j Hin). by exists fn, ops, outs. }
    intros vs ws. rewrite <- (add_args_iff other content r (length cx) vs cx ws (deep_wf r Hd) eq_refl). fold a. rewrite !runs_iff. cbn [add_args rargs rnodes rres]. rewrite Ea. split.
    - intros (rho & E1 & Hh & E2). assert (Ecx : map rho a = cx). { rewrite map_app in E1. apply app_inj_2 in E1 as [_ E1]; [done|]. unfold a. by rewrite map_length, seq_length. }
      destruct (inline_fwd w j a _ r' rho Hd' Hdeps Hcall H Hh Ecx) as (rho' & H1 & H2 & H3). exists rho'. split; [|split; [done | rewrite H3; exact E2]]. rewrite <- E1. apply map_ext_in. intros x Hx%elem_of_list_In. apply H1. apply elem_of_app. by left.
    - intros (rho & E1 & Hh & E2). assert (Ecx : map rho a = cx). { rewrite map_app in E1. apply app_inj_2 in E1 as [_ E1]; [done|]. unfold a. by rewrite map_length, seq_length. }
      destruct (inline_bwd w j a _ r' rho Hd' Hdeps Hcall H Hh Ecx) as (rho' & H1 & H2 & H3). exists rho'. split; [|split; [exact H2 | rewrite <- E2; exact H3]]. rewrite <- E1. apply map_ext_in. intros x Hx%elem_of_list_In. by apply H1.
  Qed.
End Sem.
