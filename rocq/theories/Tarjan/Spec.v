(** Specification vocabulary for strongly connected components, independent of
    the algorithm. *)
From stdpp Require Import base list relations.

Section Spec.
  Variables (numNodes : nat) (unificationRoot : nat -> nat) (successors : nat -> list nat).

  (** the nodes of the graph: indices that are their own unification root *)
  Definition is_node (v : nat) : Prop := v < numNodes /\ unificationRoot v = v.
  (** the edges: from a node to the root of one of its successors *)
  Definition edge (v w : nat) : Prop :=
    is_node v /\ exists x, x ∈ successors v /\ unificationRoot x = w.
  Definition path : nat -> nat -> Prop := rtc edge.
  Definition same_scc (v w : nat) : Prop := path v w /\ path w v.

  (** What the functors given by the caller must satisfy: the unification root
      of every successor of a node is a node. *)
  Definition well_formed : Prop :=
    forall v x, is_node v -> x ∈ successors v -> is_node (unificationRoot x).

  (** What FindStronglyConnectedComponents documents about its results *)
  Record scc_result (k : nat) (idx : nat -> nat) (rto : list nat) (idx0 : nat -> nat) : Prop := {
    (* indices start at 0, the return value is one more than the largest index, no gaps *)
    r_bound : forall v, is_node v -> idx v < k;
    r_onto : forall i, i < k -> exists v, is_node v /\ idx v = i;
    (* equal index iff mutually reachable *)
    r_same : forall v w, is_node v -> is_node w -> (idx v = idx w <-> same_scc v w);
    (* for each edge A -> B, sccIndex[A] >= sccIndex[B] *)
    r_edge : forall v w, edge v w -> idx w <= idx v;
    (* the order lists every node exactly once, with non-descending index *)
    r_nodes : forall v, v ∈ rto <-> is_node v;
    r_nodup : NoDup rto;
    r_sorted : forall i j v w, i < j -> rto !! i = Some v -> rto !! j = Some w -> idx v <= idx w;
    (* non-root entries of the output vector are not touched *)
    r_frame : forall v, ~ is_node v -> idx v = idx0 v }.
End Spec.
