(** Model of jlm/tooling/CommandGraph.cpp (SortNodesTopological, Run) and of
    JlcCommandGraphGenerator::GenerateCommandGraph
    (jlm/tooling/CommandGraphGenerator.cpp:104-196).

    Nodes are numbers.  The outgoing edges of a node live in an unordered_set:
    [succ] gives their sinks in an arbitrary order (with repetitions when there
    are parallel edges); the theorems hold for every such function. *)
From stdpp Require Import base list.

Section Sort.
  Variable succ : nat -> list nat.
  Variable entry : nat.

  (** the three local variables of SortNodesTopological *)
  Record state := { nodes : list nat; to_visit : list nat; visited : list nat }.

  (** CommandGraph.cpp:66-74: the loop over the outgoing edges of one node *)
  Fixpoint visit_sinks (sinks : list nat) (s : state) : state :=
    match sinks with
    | [] => s
    | x :: sinks =>
      visit_sinks sinks
        (if decide (x ∈ visited s) then s
         else {| nodes := nodes s ++ [x]; to_visit := to_visit s ++ [x]; visited := x :: visited s |})
    end.
  (** CommandGraph.cpp:61-75: the while loop; [None] if it needs more than
      [fuel] iterations *)
  Fixpoint loop (fuel : nat) (s : state) : option (list nat) :=
    match to_visit s with
    | [] => Some (nodes s)
    | x :: rest =>
      match fuel with
      | O => None
      | S fuel => loop fuel (visit_sinks (succ x) {| nodes := nodes s; to_visit := rest; visited := visited s |})
      end
    end.
  (** CommandGraph.cpp:54-78 SortNodesTopological; Run (81-85) executes the
      commands in the order of the result *)
  Definition sort (fuel : nat) : option (list nat) :=
    loop fuel {| nodes := [entry]; to_visit := [entry]; visited := [entry] |}.
End Sort.

(** ** the jlc command graph *)
(** CommandLine.hpp: JlcCommandLineOptions::Compilation, the four stage flags *)
Record compilation := {
  requires_parsing : bool; requires_optimization : bool; requires_assembly : bool; requires_linking : bool }.
(** CommandLine.cpp:623-644: how the jlc command line parser sets them *)
Definition object_file : compilation := {| requires_parsing := false; requires_optimization := false; requires_assembly := false; requires_linking := true |}.
Definition source_file (noLinking : bool) : compilation :=
  {| requires_parsing := true; requires_optimization := true; requires_assembly := true; requires_linking := negb noLinking |}.

(** node 0 is the entry node, node 1 the exit node (CommandGraph::CommandGraph) *)
Definition entry_node : nat := 0.
Definition exit_node : nat := 1.
(** graph under construction: the next fresh node and the edges *)
Record graph := { next_node : nat; edges : list (nat * nat) }.
Definition add_stage (needed : bool) (g : graph) (last : nat) : graph * nat :=
  if needed
  then ({| next_node := S (next_node g); edges := edges g ++ [(last, next_node g)] |}, next_node g)
  else (g, last).
(** CommandGraphGenerator.cpp:110-160: one compilation, giving its leaf node *)
Definition add_compilation (g : graph) (c : compilation) : graph * nat :=
  let '(g, last) := add_stage (requires_parsing c) g entry_node in
  let '(g, last) := add_stage (requires_optimization c) g last in
  add_stage (requires_assembly c) g last.
Fixpoint add_compilations (g : graph) (cs : list compilation) : graph * list nat :=
  match cs with
  | [] => (g, [])
  | c :: cs =>
    let '(g, leaf) := add_compilation g c in
    let '(g, leaves) := add_compilations g cs in (g, leaf :: leaves)
  end.
(** CommandGraphGenerator.cpp:162-190; returns also the linker node, if any *)
Definition generate (cs : list compilation) : graph * option nat :=
  let '(g, leaves) := add_compilations {| next_node := 2; edges := [] |} cs in
  if existsb requires_linking cs
  then let linker := next_node g in
       ({| next_node := S linker; edges := edges g ++ map (fun l => (l, linker)) leaves ++ [(linker, exit_node)] |},
        Some linker)
  else ({| next_node := next_node g; edges := edges g ++ map (fun l => (l, exit_node)) leaves |}, None).
