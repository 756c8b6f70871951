(** Vocabulary for orders of commands *)
From stdpp Require Import base list relations.
From Verif.CommandGraph Require Import Model.

(** u occurs somewhere before v in l *)
Definition before (l : list nat) (u v : nat) : Prop := exists i j, i < j /\ l !! i = Some u /\ l !! j = Some v.
Section Graph.
  Variable succ : nat -> list nat.
  Definition edge (u v : nat) : Prop := v ∈ succ u.
  Definition reachable (u v : nat) : Prop := rtc edge u v.
  (** finitely many nodes *)
  Definition finite_from (entry n : nat) : Prop := forall v, reachable entry v -> v < n.
  (** every command that is run is run after all commands it depends on *)
  Definition respects_dependencies (order : list nat) : Prop :=
    forall u v, u ∈ order -> v ∈ order -> edge u v -> before order u v.
  (** acyclic: edges lead to greater rank *)
  Definition acyclic : Prop := exists rank : nat -> nat, forall u v, edge u v -> rank u < rank v.
  (** graded: edges lead to the next level *)
  Definition graded (level : nat -> nat) : Prop := forall u v, edge u v -> level v = S (level u).
End Graph.
(** the number of commands a compilation needs before linking *)
Definition stages (c : compilation) : nat :=
  Nat.b2n (requires_parsing c) + Nat.b2n (requires_optimization c) + Nat.b2n (requires_assembly c).
(** [succ] enumerates, in some order, the edges of the graph *)
Definition enumerates (succ : nat -> list nat) (g : graph) : Prop :=
  forall u v, v ∈ succ u <-> (u, v) ∈ edges g.
