(** Well-formed loops. *)
From stdpp Require Import base list gmap.
From Coq Require Import ZArith.
From Verif.LocalRegion Require Import Model Spec.

(** every name has one owner; every use is of a name of the region *)
Definition wf_region (r : region) : Prop := NoDup (names r) /\ (forall n x, n ∈ rnodes r -> x ∈ nins n -> x ∈ names r) /\ forall x, x ∈ rres r -> x ∈ names r.
(** no cycles: all nodes, and the region's arguments, come before what they are used for *)
Definition acyclic (r : region) : Prop := exists rank : nat -> nat, (forall n x y, n ∈ rnodes r -> x ∈ nins n -> y ∈ nouts n -> rank x < rank y) /\ forall a n y, a ∈ rargs r -> n ∈ rnodes r -> y ∈ nouts n -> rank a < rank y.
(** a gamma node's subregions have a content argument, an argument per entry variable and a result per output *)
Definition wf_gamma (n : node) : Prop :=
  match nkind n with
  | KGamma subs => 0 < length (nins n) /\ forall r, r ∈ subs -> wf_region r /\ length (rargs r) = length (nins n) /\ length (rres r) = length (nouts n)
  | _ => True
  end.
(** the body of a loop: as many results as arguments, and the predicate *)
Definition wf_body (r : region) : Prop := wf_region r /\ acyclic r /\ (forall n, n ∈ rnodes r -> wf_gamma n) /\ length (rres r) = S (length (rargs r)).
From Verif.Unswitch Require Import Model.
(** the gamma node g decides about the same predicate as the loop, and has two subregions *)
Definition switches (body : region) (g : nat) : Prop := exists subs p es outs, rnodes body !! g = Some (Node (KGamma subs) (p :: es) outs) /\ length subs = 2 /\ head (rres body) = Some p.
