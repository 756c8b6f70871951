(* Model of jlm/llvm/opt/LoadChainSeparation.cpp on the chain of nodes that a
   memory state goes through. *)
From stdpp Require Import base list.

(* A memory state output, given by the nodes above it in its region: a region
   argument, alloca, malloc, undef or entry split, where tracing stops; an
   output of a load; of a store, free, memcpy or memset; of a theta node, with
   the origin of the post value in the loop; of a call; of a call exit split;
   of a merge or join of several states; of a gamma node with its memory state
   entry variables.  Nodes are numbered. *)
Inductive state :=
| Start
| Load (n : nat) (s : state)
| Modify (n : nat) (s : state)
| Loop (n : nat) (post s : state)
| Call (n : nat) (s : state)
| ExitSplit (s : state)
| Merge (ss : list state)
| Gamma (n : nat) (ss : list state).

(* What traceModRefChains returns (LoadChainSeparation.cpp:345-523):
   hasModRefChainLinkAboveInRegion. For a theta node it takes the type that
   separateRefenceChainsInTheta has stored (LoadChainSeparation.cpp:221-251),
   Modification exactly if tracing the post value returned true. For a call
   the result of tracing its state is dropped (LoadChainSeparation.cpp:438-444). That an output is traced once only (Context) changes no
   result and is left out. *)
Fixpoint trace (s : state) : bool :=
  match s with
  | Start => false
  | Load _ s => trace s
  | Modify _ _ => true
  | Loop _ post s => trace post || trace s
  | Call _ _ => false
  | ExitSplit s => trace s
  | Merge ss => existsb trace ss
  | Gamma _ _ => true
  end.

(* ModRefChainLink (LoadChainSeparation.hpp:79-105); the output of a link is
   given by its node. *)
Inductive link_type := Modification | Reference.
Inductive node := NLoad (n : nat) | NModify (n : nat) | NLoop (n : nat) (post : state) | NGamma (n : nat) (ss : list state).
Record link := Link { link_node : node; type : link_type }.

(* The links that traceModRefChains adds to the current chain, from the start
   output upwards (LoadChainSeparation.cpp:357-518). *)
Fixpoint chain (s : state) : list link :=
  match s with
  | Load n s => Link (NLoad n) Reference :: chain s
  | Modify n s => Link (NModify n) Modification :: chain s
  | Loop n post s => Link (NLoop n post) (if trace post then Modification else Reference) :: chain s
  | Gamma n ss => [Link (NGamma n ss) Modification]
  | _ => []
  end.

(* The chain after separateReferenceChains (LoadChainSeparation.cpp:253-292):
   a link on its own, or the links of a reference subchain, which all have the
   operand of the topmost one, with a join of their outputs for the users of
   the lowest one.  For a dead output no join is made; nobody sees it. *)
Inductive item := Single (l : link) | Parallel (ls : list link).

(* The links of the subchain that starts here, and the rest
   (LoadChainSeparation.cpp:333-339). *)
Fixpoint take_references (ls : list link) : list link * list link :=
  match ls with
  | Link n Reference :: ls => let '(refs, rest) := take_references ls in (Link n Reference :: refs, rest)
  | _ => ([], ls)
  end.

(* extractReferenceSubchains (LoadChainSeparation.cpp:311-343), with the links
   that are in no subchain; the loop goes on at most once per link. *)
Fixpoint separate_from (fuel : nat) (ls : list link) : list item :=
  match fuel with
  | 0 => []
  | S fuel =>
    match ls with
    | [] => []
    | Link n Modification :: ls => Single (Link n Modification) :: separate_from fuel ls
    | Link n Reference :: ls' =>
      match ls' with
      | Link _ Reference :: _ =>
        let '(refs, rest) := take_references ls in Parallel refs :: separate_from fuel rest
      | _ => Single (Link n Reference) :: separate_from fuel ls'
      end
    end
  end.
Definition separate (ls : list link) : list item := separate_from (length ls) ls.
