(** Node sinking: jlm/llvm/opt/pull.cpp.
    The nodes of a region are listed in the order in which TopDownTraverser visits them. Lambda, delta and phi nodes around the region are not modelled. *)
From stdpp Require Import base list gmap.
From Coq Require Import ZArith.
From Verif.LocalRegion Require Import Model.
From Verif.Unswitch Require Import Model.
Open Scope nat_scope.

(** Output::nusers() != 0 *)
Definition has_users (r : region) (x : oid) : bool := existsb (fun n => bool_decide (x ∈ nins n)) (rnodes r) || bool_decide (x ∈ rres r).
(** pull.cpp:271-313 is_used_in_nsubregions: the subregions in which an argument of an entry variable for an output of n has users *)
Definition used_in (n : node) (es : list oid) (subs : list region) : nat :=
  length (filter (fun r => existsb (fun d => bool_decide (d.2 ∈ nouts n) && has_users r d.1) (zip (tail (rargs r)) es) = true) subs).
(** pull.cpp:331-343, one entry variable: the index of the node that is pulled in *)
Definition sinkable (r : region) (g : nat) (q : oid) (es : list oid) (subs : list region) (x : oid) : option nat :=
  i ← owner_index (rnodes r) x; n ← rnodes r !! i;
  if negb (bool_decide (owner_index (rnodes r) q = Some i)) && single_successor r i g && bool_decide (used_in n es subs = 1) then Some i else None.
(** pullin_node and cleanup (pull.cpp:85-131), on the nodes of the region *)
Definition pull_at (r : region) (g i : nat) (n gamma : node) : region := Region (rargs r) (delete i (<[g := pull_node n gamma]> (rnodes r))) (rres r).
(** pull.cpp:327-356: from the first entry variable again after each node *)
Fixpoint sink_loop (fuel : nat) (r : region) (g : nat) : region * nat :=
  match fuel, rnodes r !! g with
  | S fuel, Some (Node (KGamma subs) (q :: es) outs) =>
      match head (omap (sinkable r g q es subs) es) with
      | Some i =>
          match rnodes r !! i with
          | Some n => sink_loop fuel (pull_at r g i n (Node (KGamma subs) (q :: es) outs)) (if decide (i < g) then pred g else g)
          | None => (r, g)
          end
      | None => (r, g)
      end
  | _, _ => (r, g)
  end.
(** pull.cpp:50-60 empty and 315-325 *)
Definition is_select (subs : list region) : bool := bool_decide (length subs = 2) && forallb (fun r => bool_decide (rnodes r = [])) subs.
Definition pull_gamma (r : region) (g : nat) : region * nat :=
  match rnodes r !! g with
  | Some (Node (KGamma subs) _ _) => if is_select subs then (r, g) else sink_loop (length (rnodes r)) r g
  | _ => (r, g)
  end.
Definition map_bodies (f : region -> region) (n : node) : node :=
  match n with
  | Node (KGamma subs) ins outs => Node (KGamma (map f subs)) ins outs
  | Node (KTheta b) ins outs => Node (KTheta (f b)) ins outs
  | _ => n
  end.
(** pull.cpp:358-372: k nodes are left to be visited, the next one has index i. Nodes that are pulled in were visited before *)
Fixpoint visit (f : region -> region) (k i : nat) (r : region) : region :=
  match k with
  | O => r
  | S k => let (r, i) := pull_gamma r i in visit f k (S i) (Region (rargs r) (alter (map_bodies f) i (rnodes r)) (rres r))
  end.
(** subregions are visited with the nodes that were pulled into them: fuel for the depth of the recursion *)
Fixpoint sink_nodes (fuel : nat) (r : region) : region :=
  match fuel with O => r | S fuel => visit (sink_nodes fuel) (length (rnodes r)) 0 r end.
