(** From a structured control flow graph to its aggregation tree. jlm/llvm/ir/aggregation.cpp, cfg-structure.cpp, cfg-node.hpp *)
From stdpp Require Import base list list_numbers fin_sets gmap fin_maps.
From Verif.Construct Require Import Model.
From Verif.Cfg Require Model.

(** the control flow graph together with AggregationMap (aggregation.cpp:122-172): a node has a subtree and the sinks of its out-edges. Nodes that have
    been reduced stay in the C++ graph without an edge to any other node, and AggregationMap has no entry for them, so that aggregation.cpp either fails
    AggregationMap::lookup or reaches JLM_UNREACHABLE when it comes to one; here they are removed *)
Record node := Node { label : tree; outs : list nat }.
Notation graph := (gmap nat node).
Definition edges (G : graph) : list (nat * nat) := p ← map_to_list G; (p.1,.) <$> outs p.2.
(** cfg-node.cpp NumInEdges *)
Definition in_degree (G : graph) (n : nat) : nat := length (filter (fun e => e.2 = n) (edges G)).
(** cfg-node.hpp:170-178 divert_inedges *)
Definition redirect (n m k : nat) : nat := if decide (k = n) then m else k.
Definition divert (n m : nat) (G : graph) : graph := (fun nd => Node (label nd) (redirect n m <$> outs nd)) <$> G.

(** The variables of aggregate_acyclic_sese: the graph, the number of the next node that is created, *entry, *exit *)
Record state := State { gr : graph; next : nat; ent : nat; ext : nat }.
(** aggregation.cpp:339-369 reduce_linear; a is the source, b its only successor. A node that is its own successor: the second child is a null pointer *)
Definition reduce_linear (st : state) (a b : nat) : option state :=
  if decide (a = b) then None else
  na ← gr st !! a; nb ← gr st !! b;
  let c := next st in
  Some (State (<[c := Node (Linear [label na; label nb]) (redirect a c <$> outs nb)]> (delete b (delete a (divert a c (gr st))))) (S c) (redirect a c (ent st)) (redirect b c (ext st))).
(** aggregation.cpp:191-212 is_branch: the node where the alternatives meet *)
Definition is_branch (G : graph) (split : nat) : option nat :=
  nd ← G !! split;
  match outs nd with
  | s :: _ :: _ =>
      ns ← G !! s;
      match outs ns with
      | [join] => if decide (Forall (fun m => in_degree G m = 1 /\ outs <$> G !! m = Some [join]) (outs nd)) then Some join else None
      | _ => None
      end
  | _ => None
  end.
(** aggregation.cpp:279-320 reduce_branch. If the alternatives lead back to the split: the new node has an edge to the split, which is gone *)
Definition reduce_branch (st : state) (split join : nat) : option state :=
  if decide (join = split) then None else
  nd ← gr st !! split;
  ls ← mapM (fun m => label <$> gr st !! m) (outs nd);
  let c := next st in
  Some (State (<[c := Node (Linear [label nd; Branch ls]) [join]]> (foldr delete (divert split c (gr st)) (split :: outs nd))) (S c) (redirect split c (ent st)) (ext st)).
(** aggregation.cpp:392-463 aggregate_acyclic_sese. [None]: a failed assertion, JLM_UNREACHABLE or not enough fuel *)
Definition each (f : state -> nat -> option state) (n : nat) : list nat -> state -> option state :=
  fix go l st := match l with [] => Some st | i :: l => nd ← gr st !! n; s ← outs nd !! i; st ← f st s; go l st end.
Fixpoint acyclic (fuel : nat) (st : state) (n : nat) : option state :=
  match fuel with
  | 0 => None
  | S fuel =>
      if decide (ent st = ext st) then if decide (n = ent st) then Some st else None else
      if decide (n = ext st) then Some st else
      nd ← gr st !! n;
      match outs nd with
      | [s] => if decide (in_degree (gr st) s = 1) then st' ← reduce_linear st n s; acyclic fuel st' (next st)
               else if decide (in_degree (gr st) n = 1) then acyclic fuel st s
               else if decide (1 < in_degree (gr st) n) then Some st else None
      | [] => if decide (1 < in_degree (gr st) n) then Some st else None
      | ss => st1 ← each (acyclic fuel) n (seq 0 (length ss)) st;
              join ← is_branch (gr st1) n; st2 ← reduce_branch st1 n join; acyclic fuel st2 (next st1)
      end
  end.

(** cfg-structure.cpp:36-72 StronglyConnectedComponentStructure::Create *)
Definition entry_nodes (G : graph) (S : gset nat) : list nat := filter (fun n => Exists (fun e => e.2 = n /\ e.1 ∉ S) (edges G)) (elements S).
Definition outs_of (G : graph) (n : nat) : list nat := match G !! n with Some nd => outs nd | None => [] end.
Definition exit_edges (G : graph) (S : gset nat) : list (nat * nat) := n ← elements S; (n,.) <$> filter (fun m => m ∉ S) (outs_of G n).
(** source and index *)
Definition repetition_edges (G : graph) (S : gset nat) : list (nat * nat) :=
  n ← elements S; (fun p => (n, p.1)) <$> filter (fun p => p.2 ∈ entry_nodes G S) (imap pair (outs_of G n)).
(** cfg-structure.cpp:29-35 IsTailControlledLoop: the entry node, the node at the end, the index of the repetition edge *)
Definition tail_controlled (G : graph) (S : gset nat) : option (nat * nat * nat) :=
  match entry_nodes G S, exit_edges G S, repetition_edges G S with
  | [h], [(t, _)], [(t', j)] => if decide (t = t') then Some (h, t, j) else None
  | _, _, _ => None
  end.
(** aggregation.cpp:230-250 reduceLoop, cfg-node.hpp remove_outedge *)
Definition remove_outedge (n i : nat) (G : graph) : graph := alter (fun nd => Node (label nd) (delete i (outs nd))) n G.
Definition relabel (n : nat) (f : tree -> tree) (G : graph) : graph := alter (fun nd => Node (f (label nd)) (outs nd)) n G.
Section Aggregate.
  (** cfg-structure.cpp:78-144 find_sccs, by its specification (see Spec.v) *)
  Context (find_sccs : graph -> nat -> nat -> list (gset nat)).
  (** aggregation.cpp:371-390 aggregate_loops *)
  Definition aggregate_loops (aggr : graph -> nat -> nat -> nat -> option (graph * nat * nat)) : list (gset nat) -> graph -> nat -> option (graph * nat) :=
    fix go l G c :=
      match l with
      | [] => Some (G, c)
      | scc :: l =>
          '(h, t, j) ← tail_controlled G scc;
          if decide (j = 1) then
            '(G, c, n) ← aggr (remove_outedge t j G) c h t;
            if decide (is_Some (G !! n)) then go l (relabel n Loop G) c else None
          else None
      end.
  (** aggregation.cpp:480-488 aggregate: the graph, the next number, the node that the subgraph has become *)
  Fixpoint aggregate (fuel : nat) (G : graph) (c e x : nat) : option (graph * nat * nat) :=
    match fuel with
    | 0 => None
    | S fuel =>
        '(G, c) ← aggregate_loops (aggregate fuel) (find_sccs G e x) G c;
        st ← acyclic fuel (State G c e x) e;
        if decide (ent st = ext st) then Some (gr st, next st, ent st) else None
    end.
  (** aggregation.cpp:149-169 AggregationMap::create. Simplification: the entry and the exit have an empty basic block *)
  Definition initial (g : Cfg.Model.cfg) : option graph :=
    bs ← mapM (fun p => ts ← mapM (fun i => match i with Cfg.Model.Tac x => Some x | Cfg.Model.Phi _ _ => None end) (Cfg.Model.code p.2);
                        Some (p.1, Node (Block ts) (Cfg.Model.succ p.2))) (map_to_list (Cfg.Model.blocks g));
    Some (<[Cfg.Model.entry := Node (Block []) [Cfg.Model.start g]]> (<[Cfg.Model.exit := Node (Block []) []]> (list_to_map bs))).
  (** aggregation.cpp:490-499; s: a number above those of the nodes *)
  Definition aggregate_cfg (fuel : nat) (g : Cfg.Model.cfg) (s : nat) : option tree :=
    G ← initial g; '(G, _, n) ← aggregate fuel G s Cfg.Model.entry Cfg.Model.exit; label <$> G !! n.
End Aggregate.

(** aggregation.cpp:18-56 normalize. There, the linear nodes below a linear node are flattened before their children are normalized; the result is the same *)
Definition parts (t : tree) : list tree := match t with Linear l => l | _ => [t] end.
Fixpoint normalize (t : tree) : tree :=
  match t with
  | Block l => Block l
  | Linear l => Linear (l ≫= fun c => parts (normalize c))
  | Branch l => Branch (map normalize l)
  | Loop b => Loop (normalize b)
  end.
