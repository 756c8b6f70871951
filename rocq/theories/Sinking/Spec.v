(** Well-formed regions with all regions inside, and nodes that only one alternative needs. *)
From stdpp Require Import base list gmap.
From Coq Require Import ZArith.
From Verif.LocalRegion Require Import Model.
From Verif.Unswitch Require Import Spec.

Definition bodies (n : node) : list region := match nkind n with KGamma subs => subs | KTheta b => [b] | KSimple _ => [] end.
Definition good_region (r : region) : Prop := wf_region r /\ acyclic r /\ forall n, n ∈ rnodes r -> wf_gamma n.
Inductive good : region -> Prop := good_intro r : good_region r -> (forall n b, n ∈ rnodes r -> b ∈ bodies n -> good b) -> good r.

Definition uses (r : region) (x : oid) : Prop := (exists n, n ∈ rnodes r /\ x ∈ nins n) \/ x ∈ rres r.
(** the subregion s of a gamma node with entry variables es uses an output of n *)
Definition needs (n : node) (es : list oid) (s : region) : Prop := exists j x a, es !! j = Some x /\ x ∈ nouts n /\ rargs s !! S j = Some a /\ uses s a.
(** all that uses outputs of n is the gamma node with entry variables es, for other values than its predicate q; the rest of the nodes of the region: others *)
Definition only_for (n : node) (q : oid) (es : list oid) (others : list node) (res : list oid) : Prop :=
  (exists x, x ∈ nouts n /\ x ∈ es) /\ q ∉ nouts n /\ forall x, x ∈ nouts n -> x ∉ res /\ forall m, m ∈ others -> x ∉ nins m.
(** a gamma node is done: it is a select in disguise, or no node of the region is there for one of its subregions only *)
Definition settled (gamma : node) (others : list node) (res : list oid) : Prop :=
  forall subs q es outs, gamma = Node (KGamma subs) (q :: es) outs ->
    (length subs = 2 /\ forall s, s ∈ subs -> rnodes s = []) \/
    forall n, n ∈ others -> only_for n q es others res -> ~ exists k s, subs !! k = Some s /\ needs n es s /\ forall k' s', subs !! k' = Some s' -> needs n es s' -> k' = k.
Inductive sunk : region -> Prop := sunk_intro r :
  (forall l1 gamma l2, rnodes r = l1 ++ gamma :: l2 -> settled gamma (l1 ++ l2) (rres r)) -> (forall n b, n ∈ rnodes r -> b ∈ bodies n -> sunk b) -> sunk r.
(** how deep nodes can get: the number of nodes, and for each of them its deepest subregion *)
Fixpoint extent (r : region) : nat :=
  match r with
  | Region _ nodes _ =>
      (fix go (l : list node) : nat :=
        match l with
        | [] => 0
        | Node k _ _ :: l => S (match k with KSimple _ => 0 | KGamma subs => (fix deepest (s : list region) : nat := match s with [] => 0 | r :: s => max (extent r) (deepest s) end) subs | KTheta b => extent b end) + go l
        end) nodes
  end.
