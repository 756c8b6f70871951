(** Orders in which the nodes of a region are executed. *)
From stdpp Require Import base list.
From Verif.IoBarrier Require Import Model.

(** What is known of an execution: how many bytes can be accessed at an
    address, and which nodes do not return (a call of exit, say). *)
Record world := World { accessible : origin -> nat; stops : nat -> bool }.

Definition operands_of (x : node) : list origin :=
  match x with Load a _ ss => a :: ss | Barrier v io => [v; io] | OtherNode os => os end.
(** Node m computes an operand of node n. *)
Definition uses (g : graph) (n m : nat) : Prop := exists x k, g !! n = Some x /\ Out m k ∈ operands_of x.
Inductive depends (g : graph) : nat -> nat -> Prop :=
  | depends_direct n m : uses g n m -> depends g n m
  | depends_trans n m p : uses g n m -> depends g m p -> depends g n p.

(** The orders of execution, the last node first: a node is executed once, after
    the nodes it uses, and nothing is executed after a node that does not
    return. *)
Inductive executed (g : graph) (w : world) : list nat -> Prop :=
  | executed_nil : executed g w []
  | executed_cons n ns : executed g w ns -> n ∉ ns -> is_Some (g !! n) ->
      (forall m, uses g n m -> m ∈ ns) -> (forall m, m ∈ ns -> stops w m = false) -> executed g w (n :: ns).

(** In no order a load accesses bytes that cannot be accessed. *)
Definition safe (g : graph) (w : world) : Prop := forall n ns a size states,
  executed g w (n :: ns) -> g !! n = Some (Load a size states) -> size <= accessible w a.

(** A barrier hands its value on. *)
Definition barriers_transparent (g : graph) (w : world) : Prop := forall n v io k,
  g !! n = Some (Barrier v io) -> accessible w (Out n k) = accessible w v.
(** The nodes are listed in a topological order. *)
Definition topological (g : graph) : Prop := forall n m, uses g n m -> m < n.

(** The loads that show their address to be dereferenceable: those without a
    barrier, and those behind a barrier with the IO state of the lambda. *)
Definition unbarred (g : graph) (n : nat) (a : origin) (size : nat) : Prop :=
  exists b states, g !! n = Some (Load b size states) /\
    ((b = a /\ forall m k v io, b = Out m k -> g !! m <> Some (Barrier v io)) \/
     (exists m k i, b = Out m k /\ g !! m = Some (Barrier a (Arg i)))).

(** A value that is behind a barrier. *)
Definition barred (g : graph) (a : origin) : Prop := exists m io, g !! m = Some (Barrier a io).
(** Load n of the graph is changed. *)
Definition changed (g g' : graph) (n : nat) : Prop := g !! n <> g' !! n.
Definition is_load (g : graph) (n : nat) : Prop := exists a size states, g !! n = Some (Load a size states).
