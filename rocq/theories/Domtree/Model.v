(** Dominator trees: jlm/llvm/ir/domtree.cpp, and the postorder of cfg.cpp. *)
From stdpp Require Import base list fin_sets gmap fin_maps.
From Verif.Cfg Require Import Model.

(** domtree.hpp:20-104 DominatorTreeNode: the tree: the parent and the depth (domtree.cpp:17-26 add_child) of its nodes. Simplification: the order of the children is left out; it is that of a std::unordered_set *)
Notation tree := (gmap nat (option nat * nat)).

Section Graph.
  (** [inedges n]: the sources of n's in-edges, cfg-node.hpp InEdges(); the order of that set is arbitrary *)
  Context (g : cfg) (inedges : nat -> list nat).
  (** the entry, the exit and the basic blocks *)
  Definition nodes : list nat := entry :: exit :: (map_to_list (blocks g)).*1.
  (** cfg-structure.cpp:564-577 is_closed: every basic block is the sink of an edge *)
  Definition is_closed : bool := forallb (fun n => bool_decide (n ∈ (edges g).*2)) (map_to_list (blocks g)).*1.

  (** cfg.cpp:291-304 traverse, with the nodes visited and the nodes done so far. Simplification: the depth of the recursion is bounded; the bound is not reached (postorder_total) *)
  Definition each (f : nat -> gset nat * list nat -> option (gset nat * list nat)) : list nat -> gset nat * list nat -> option (gset nat * list nat) :=
    fix go l st := match l with [] => Some st | m :: l => st' ← (if decide (m ∈ st.1) then Some st else f m st); go l st' end.
  Fixpoint traverse (fuel : nat) (n : nat) (st : gset nat * list nat) : option (gset nat * list nat) :=
    match fuel with
    | 0 => None
    | S fuel => st' ← each (traverse fuel) (sinks g n) ({[n]} ∪ st.1, st.2); Some (st'.1, st'.2 ++ [n])
    end.
  (** cfg.cpp:282-319 postorder, reverse_postorder *)
  Definition postorder : option (list nat) := snd <$> traverse (S (length nodes)) entry (∅, []).
  Definition reverse_postorder : option (list nat) := reverse <$> postorder.

  (** domtree.cpp:101-105: the indices of the nodes, counted down *)
  Fixpoint number (l : list nat) (i : nat) : gmap nat nat := match l with [] => ∅ | n :: l => <[n := i]> (number l (pred i)) end.
  (** domtree.cpp:64-80 intersect; the two inner loops and the outer one take the same steps as this loop. doms: without the nodes whose dominator is null. None: at() throws. Simplification: the number of steps is bounded;
      the bound is not reached (domtree_total) *)
  Fixpoint intersect (fuel : nat) (ix doms : gmap nat nat) (b1 b2 : nat) : option nat :=
    match fuel with
    | 0 => None
    | S fuel =>
        i1 ← ix !! b1; i2 ← ix !! b2;
        if i1 <? i2 then b ← doms !! b1; intersect fuel ix doms b b2
        else if i2 <? i1 then b ← doms !! b2; intersect fuel ix doms b1 b
        else Some b1
    end.
  (** domtree.cpp:117-138: the first predecessor with a dominator, and its intersection with the others. None: the assertion fails *)
  Fixpoint meet (fuel : nat) (ix doms : gmap nat nat) (first : nat) (ps : list nat) (cur : nat) : option nat :=
    match ps with
    | [] => Some cur
    | p :: ps =>
        if decide (p = first) then meet fuel ix doms first ps cur
        else match doms !! p with Some _ => c ← intersect fuel ix doms p cur; meet fuel ix doms first ps c | None => meet fuel ix doms first ps cur end
    end.
  Definition new_idom (fuel : nat) (ix doms : gmap nat nat) (v : nat) : option nat :=
    p ← head (filter (fun p => is_Some (doms !! p)) (inedges v)); meet fuel ix doms p (inedges v) p.
  (** domtree.cpp:111-145: an iteration of the outer loop *)
  Fixpoint pass (fuel : nat) (ix : gmap nat nat) (l : list nat) (doms : gmap nat nat) (changed : bool) : option (gmap nat nat * bool) :=
    match l with
    | [] => Some (doms, changed)
    | v :: l =>
        if decide (v = entry) then pass fuel ix l doms changed
        else n ← new_idom fuel ix doms v; if decide (doms !! v = Some n) then pass fuel ix l doms changed else pass fuel ix l (<[v := n]> doms) true
    end.
  Fixpoint loop (fuel m : nat) (ix : gmap nat nat) (rpo : list nat) (doms : gmap nat nat) : option (gmap nat nat) :=
    match fuel with
    | 0 => None
    | S fuel => '(d, changed) ← pass m ix rpo doms false; if changed : bool then loop fuel m ix rpo d else Some d
    end.

  (** domtree.cpp:31-46: build *)
  Fixpoint build (fuel : nat) (doms : gmap nat nat) (v : nat) (t : tree) : option tree :=
    match fuel with
    | 0 => None
    | S fuel =>
        match t !! v with
        | Some _ => Some t
        | None => d ← doms !! v; t' ← build fuel doms d t; p ← t' !! d; Some (<[v := (Some d, S p.2)]> t')
        end
    end.
  Fixpoint build_all (fuel : nat) (doms : gmap nat nat) (l : list nat) (t : tree) : option tree :=
    match l with [] => Some t | v :: l => t' ← build fuel doms v t; build_all fuel doms l t' end.
  (** domtree.cpp:50-55: the nodes that are not the dominator of a basic block *)
  Definition leaves (doms : gmap nat nat) : list nat := filter (fun n => Forall (fun v => doms !! v <> Some n) (map_to_list (blocks g)).*1) nodes.
  (** domtree.cpp:86-150 domtree, with build_domtree (29-62). None: an assertion fails, or at() throws. [arrange]: the order of std::unordered_set *)
  Definition domtree (arrange : list nat -> list nat) : option tree :=
    if is_closed then
      rpo ← reverse_postorder;
      if decide (length rpo = size (blocks g) + 2) then
        let n := length rpo in
        let ix := number rpo n in
        doms ← loop (3 + n * S n) (S (n + n)) ix rpo {[entry := entry]};
        let doms := delete entry doms in
        build_all (S n) doms (arrange (leaves doms)) {[entry := (None, 0)]}
      else None
    else None.
End Graph.
