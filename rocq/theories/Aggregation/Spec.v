(** What the strongly connected components of a subgraph are. The meaning of control flow graphs is in Cfg/Spec.v, that of aggregation trees in Construct/Spec.v *)
From stdpp Require Import base list list_numbers fin_sets gmap fin_maps relations.
From Verif.Construct Require Import Model Spec.
From Verif.Cfg Require Model.
From Verif.Aggregation Require Import Model.

(** an edge that does not start at the exit of the subgraph *)
Definition step (G : graph) (x p q : nat) : Prop := p <> x /\ q ∈ outs_of G p.
(** the nodes that reach v and are reached from v, which is reached from the entry; not a single node without an edge to itself *)
Definition is_scc (G : graph) (e x : nat) (C : gset nat) : Prop :=
  exists v, rtc (step G x) e v /\ (forall w, w ∈ C <-> rtc (step G x) v w /\ rtc (step G x) w v) /\ (C <> {[v]} \/ v ∈ outs_of G v).
(** a function that finds strongly connected components *)
Definition finds_sccs (f : graph -> nat -> nat -> list (gset nat)) : Prop := forall G e x, NoDup (f G e x) /\ forall C, C ∈ f G e x <-> is_scc G e x C.
(** a basic block with more than two successors is not one of them *)
Definition no_wide_self_loop (g : Cfg.Model.cfg) : Prop := forall n b, Cfg.Model.blocks g !! n = Some b -> n ∈ Cfg.Model.succ b -> length (Cfg.Model.succ b) <= 2.
(** the node numbers from s on are not used *)
Definition above (g : Cfg.Model.cfg) (s : nat) : Prop := Cfg.Model.exit < s /\ forall n, is_Some (Cfg.Model.blocks g !! n) -> n < s.
(** no linear node has a linear child *)
Fixpoint normal (t : tree) : Prop :=
  match t with
  | Block _ => True
  | Linear l => fold_right and True (map (fun c => (forall l', c <> Linear l') /\ normal c) l)
  | Branch l => fold_right and True (map normal l)
  | Loop b => normal b
  end.
