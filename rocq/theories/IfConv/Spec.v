(** Well-formed regions, with the bodies of their loops. *)
From stdpp Require Import base list gmap.
From Coq Require Import ZArith.
From Verif.LocalRegion Require Import Model Spec.
From Verif.Unswitch Require Import Spec.

(** the keys of a match of w bits are values of w bits; there are no keys over 2^63 in a match of more than 64 bits *)
Definition good_match (n : node) : Prop :=
  match nkind n with KSimple (OMatch w m d) => (0 < w)%Z /\ forall p, p ∈ m -> (0 <= p.1 < 2 ^ w /\ p.1 < 2 ^ 64 /\ (64 < w -> p.1 < 2 ^ 63))%Z | _ => True end.
(** control types: the number of alternatives of every output; a gamma node has as many subregions as its predicate has alternatives, a match has no others, and a value that is routed through a gamma node keeps its type *)
Definition typed (l : list node) : Prop := exists ty : nat -> nat,
  (forall subs q es outs, Node (KGamma subs) (q :: es) outs ∈ l -> length subs = ty q) /\
  (forall w m d ins outs y p, Node (KSimple (OMatch w m d)) ins outs ∈ l -> y ∈ outs -> p ∈ m -> p.2 < ty y) /\
  (forall subs q es outs r j i x y o, Node (KGamma subs) (q :: es) outs ∈ l -> r ∈ subs -> outs !! j = Some x -> rres r !! j = Some y -> rargs r !! S i = Some y -> es !! i = Some o -> ty x = ty o).
Definition good_region (r : region) : Prop := wf_region r /\ acyclic r /\ typed (rnodes r) /\ forall n, n ∈ rnodes r -> wf_gamma n /\ good_match n.
Inductive good : region -> Prop := good_intro r : good_region r -> (forall b ins outs, Node (KTheta b) ins outs ∈ rnodes r -> good b) -> good r.
(** nothing that makes the pass stop: a match with one case has another alternative for it than the default; results of a gamma node's subregions are not the match content argument *)
Definition plain_node (n : node) : Prop :=
  match nkind n with
  | KSimple (OMatch w [(v, a)] d) => a <> d
  | KGamma subs => forall r x, r ∈ subs -> x ∈ rres r -> Some x <> head (rargs r)
  | _ => True
  end.
Inductive plain : region -> Prop := plain_intro r : (forall n, n ∈ rnodes r -> plain_node n) -> (forall b ins outs, Node (KTheta b) ins outs ∈ rnodes r -> plain b) -> plain r.
(** nothing uses x *)
Definition unused (r : region) (x : oid) : Prop := (forall n, n ∈ rnodes r -> x ∉ nins n) /\ x ∉ rres r.
(** q comes from a match with no case, or several ones *)
Definition several_cases (l : list node) (q : oid) : Prop := exists w m d x ins mouts, Node (KSimple (OMatch w m d)) (x :: ins) mouts ∈ l /\ q ∈ mouts /\ length m <> 1.
