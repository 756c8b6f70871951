(** The breadth-first order of a control flow graph: jlm/llvm/ir/cfg.cpp. The
    postorder and its reverse are modelled in Domtree/Model.v. *)
From stdpp Require Import base list fin_sets gmap fin_maps.
From Verif.Cfg Require Import Model.
From Verif.Domtree Require Import Model.

(** cfg.cpp:332-340: the loop over the out-edges of a node; a state is next, nodes and visited *)
Fixpoint expand (sinks : list nat) (st : list nat * list nat * gset nat) : list nat * list nat * gset nat :=
  match sinks with
  | [] => st
  | m :: sinks =>
      let '(next, nodes, visited) := st in
      expand sinks (if decide (m ∈ visited) then st else (next ++ [m], nodes ++ [m], {[m]} ∪ visited))
  end.
(** cfg.cpp:327-341: the loop over next. Simplification: the number of iterations is bounded; the bound is not reached (breadth_first_total) *)
Fixpoint bfs_loop (fuel : nat) (g : cfg) (next nodes : list nat) (visited : gset nat) : option (list nat) :=
  match next with
  | [] => Some nodes
  | n :: next =>
      match fuel with
      | 0 => None
      | S fuel =>
          let '(next', nodes', visited') := expand (sinks g n) (next, nodes, visited) in
          bfs_loop fuel g next' nodes' visited'
      end
  end.
(** cfg.cpp:321-344 breadth_first *)
Definition breadth_first (g : cfg) : option (list nat) := bfs_loop (length (nodes g)) g [entry] [entry] {[entry]}.
