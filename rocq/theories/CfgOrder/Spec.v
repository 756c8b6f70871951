(** Orders of the nodes of control flow graphs. *)
From stdpp Require Import base list relations.
From Verif.Cfg Require Import Model.

(** a path of k edges from u to v *)
Inductive path (g : cfg) (u : nat) : nat -> nat -> Prop :=
  | path_nil : path g u 0 u
  | path_edge k v w : path g u k v -> w ∈ sinks g v -> path g u (S k) w.
Definition reaches (g : cfg) (u v : nat) : Prop := exists k, path g u k v.

(** edges lead to the exit or to basic blocks *)
Definition edges_valid (g : cfg) : Prop := forall n m, m ∈ sinks g n -> m = exit \/ is_Some (blocks g !! m).

(** u comes before v in l *)
Definition before (l : list nat) (u v : nat) : Prop := exists i j, i < j /\ l !! i = Some u /\ l !! j = Some v.
