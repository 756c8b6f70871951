(** What a region and a control flow graph have to do with each other. *)
From stdpp Require Import base list gmap.
From Verif.Construct Require Import Model Spec.
From Verif.Cfg Require Import Model Spec.
From Verif.LocalRegion Require Import Model Spec.
From Verif.Unswitch Require Import Spec.
From Verif.Sinking Require Import Spec.
From Verif.Hoisting Require Import Spec.

(** the alternative that a control value selects *)
Definition as_ctl (v : val) : option nat := match v with VCtl k => Some k | _ => None end.
(** well-formed regions with all regions inside; gamma nodes have at least two subregions *)
Inductive well : region -> Prop :=
  well_intro r : wf_region r -> (forall n, n ∈ rnodes r -> wf_node n /\ forall subs, nkind n = KGamma subs -> 1 < length subs) -> (forall n b, n ∈ rnodes r -> b ∈ bodies n -> well b) -> well r.
(** in every region, each node comes after those whose outputs it uses *)
Inductive sorted : region -> Prop :=
  sorted_intro r : (forall l1 n l2 x, rnodes r = l1 ++ n :: l2 -> x ∈ nins n -> x ∈ rargs r \/ x ∈ all_outs l1) -> (forall n b, n ∈ rnodes r -> b ∈ bodies n -> sorted b) -> sorted r.
(** no match content argument of a gamma node has a user *)
Inductive content_free : region -> Prop :=
  content_free_intro r : (forall n subs s c, n ∈ rnodes r -> nkind n = KGamma subs -> s ∈ subs -> head (rargs s) = Some c -> ~ uses s c) -> (forall n b, n ∈ rnodes r -> b ∈ bodies n -> content_free b) -> content_free r.
(** the graph computes what the region does: params are the variables of the arguments, results those of the results *)
Definition implements {opcode : op -> nat} (r : region) (params : list nat) (g : cfg) (results : list nat) : Prop :=
  forall other content sem truth, (forall o vs, sem (opcode o) vs = op_sem other o vs) ->
  forall (σ : nat -> val) ws, LocalRegion.Spec.runs other content r (map σ params) ws <-> exists σ', executes as_ctl sem truth g σ σ' /\ ws = map σ' results.
