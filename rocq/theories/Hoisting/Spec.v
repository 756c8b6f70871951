(** Well-formed regions, with the regions inside; what it means that a node can be computed earlier. *)
From stdpp Require Import base list gmap.
From Coq Require Import ZArith.
From Verif.LocalRegion Require Import Model Spec.
From Verif.Unswitch Require Import Spec.
From Verif.Sinking Require Import Spec.

Definition wf_node (n : node) : Prop :=
  match nkind n with
  | KGamma _ => wf_gamma n
  | KTheta b => length (rargs b) = length (nins n) /\ length (rres b) = S (length (nins n)) /\ length (nouts n) = length (nins n)
  | KSimple _ => True
  end.
Inductive deep : region -> Prop := deep_intro r : wf_region r -> acyclic r -> (forall n, n ∈ rnodes r -> wf_node n) -> (forall n b, n ∈ rnodes r -> b ∈ bodies n -> deep b) -> deep r.
Section Sem.
  Context (other : nat -> list val -> option (list val)) (content : val -> val).
  (** whatever r computes, r' computes as well *)
  Definition refines (r r' : region) : Prop := forall vs ws, runs other content r vs ws -> runs other content r' vs ws.
  (** in every execution of the nodes of r, the operation o is defined for the values of xs, with m results *)
  Definition defined_in (r : region) (o : op) (xs : list oid) (m : nat) : Prop :=
    forall rho, hold other content rho (rnodes r) -> exists us, op_sem other o (map rho xs) = Some us /\ length us = m.
End Sem.
(** the region at a path, from outside to inside: index of the structural node, and of its subregion *)
Inductive inside : region -> list (nat * nat) -> region -> Prop :=
  | inside_here r : inside r [] r
  | inside_there r i k n s w r' : rnodes r !! i = Some n -> bodies n !! k = Some s -> inside s w r' -> inside r ((i, k) :: w) r'.
(** only loops on the way *)
Inductive loops_only : region -> list (nat * nat) -> Prop :=
  | lo_here r : loops_only r []
  | lo_there r i b ins outs w : rnodes r !! i = Some (Node (KTheta b) ins outs) -> loops_only b w -> loops_only r ((i, 0) :: w).
