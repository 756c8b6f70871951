(** Dominators. *)
From stdpp Require Import base list gmap.
From Verif.Cfg Require Import Model.

Section Graph.
  Context (g : cfg).
  (** the walks from the entry to a node, with all the nodes on the way *)
  Inductive walk : list nat -> nat -> Prop :=
    | walk_entry : walk [entry] entry
    | walk_step l p v : walk l p -> v ∈ sinks g p -> walk (l ++ [v]) v.
  (** d is on every walk to v *)
  Definition dominates (d v : nat) : Prop := forall l, walk l v -> d ∈ l.
  (** d is the strict dominator of v that all strict dominators of v dominate *)
  Definition idom (d v : nat) : Prop := (d <> v /\ dominates d v) /\ forall s, s <> v -> dominates s v -> dominates s d.
  (** the numbers of the entry and the exit are not those of basic blocks, edges lead to nodes, and every node is reachable *)
  Definition connected : Prop :=
    blocks g !! entry = None /\ blocks g !! exit = None /\ (forall n m, m ∈ sinks g n -> m = exit \/ is_Some (blocks g !! m)) /\ forall v, v = exit \/ is_Some (blocks g !! v) -> exists l, walk l v.
End Graph.
