(* Model of InvariantValueRedirection::redirectCallOutputs
   (jlm/llvm/opt/InvariantValueRedirection.cpp:281-399). *)
From stdpp Require Import base list.

(* Memory node ids (MemoryStateOperations.hpp, MemoryNodeId); types are
   numbered. *)
Definition id := nat.
Definition ty := nat.

(* The origin of an edge in the subregion of the lambda: the argument of the
   subregion with this index (the function arguments come first, then the
   context variables, lambda.cpp:57-67, 80-86), the output of the
   LambdaEntryMemoryStateSplit node for a memory node id, or an output of
   another node. *)
Inductive inner :=
| Arg (i : nat)
| SplitOut (e : id)
| Inner (o : nat).
Global Instance inner_eq_dec : EqDecision inner.
Proof. solve_decision. Defined.

(* The lambda: the types of its function arguments, the origins of its function
   results, the memory node ids of its entry split and, for its exit merge, the
   memory node ids with the origins of the inputs, if it has these nodes
   (lambda.hpp, tryGetMemoryStateEntrySplit, tryGetMemoryStateExitMerge).
   The last function argument and the last result are the memory state
   (call.hpp:557-572). *)
Record lambda := Lambda {
  params : list ty;
  results : list inner;
  entry_split : option (list id);
  exit_merge : option (list (id * inner))
}.

(* The call node: the origins of its operands (CallOperation::Argument), the
   types of its outputs, for each whether it has users, and the call exit split and call entry merge, if it
   has them (call.hpp:388-418).  The exit split is the only user of the memory
   state output.  Origins are numbered. *)
Record call := Call {
  operands : list nat;
  outputs : list (ty * bool);
  exit_split : option (list id);
  entry_merge : option (list (id * nat))
}.

(* What a diversion changes: the users of an output of the call node or of the
   call exit split. *)
Inductive diverted :=
| CallOut (n : nat)
| ExitOut (m : id).

(* The outcome: the diversions in their order, or a TypeError thrown by
   Input::divert_to (node.cpp:69-70), or a read behind the end of the
   results or an operand (the JLM_ASSERTs at 308 and call.hpp:313). *)
Inductive outcome :=
| Done (ds : list (diverted * nat))
| TypeError
| OutOfBounds.

(* divert_users (node.hpp:300-308): without users nothing is compared. *)
Definition divert_ok (otype : nat -> ty) (t : ty) (used : bool) (o : nat) : bool :=
  negb used || bool_decide (otype o = t).

(* The first loop (InvariantValueRedirection.cpp:307-329), from output n on.
   MapBinderContextVar (lambda.cpp:88-95) is defined for the arguments after
   the function arguments. *)
Fixpoint redirect_results (otype : nat -> ty) (l : lambda) (ops : list nat) (n : nat) (outs : list (ty * bool)) : outcome :=
  match outs with
  | [] => Done []
  | (t, used) :: outs =>
    match results l !! n with
    | None => OutOfBounds
    | Some (Arg i) =>
      if length (params l) <=? i then redirect_results otype l ops (S n) outs
      else match ops !! i with
           | None => OutOfBounds
           | Some o =>
             if divert_ok otype t used o then
               match redirect_results otype l ops (S n) outs with
               | Done ds => Done ((CallOut n, o) :: ds)
               | r => r
               end
             else TypeError
           end
    | Some _ => redirect_results otype l ops (S n) outs
    end
  end.

(* util::BijectiveMap lookup of a memory node id (MemoryStateOperations.cpp:405-425, 583-603). *)
Fixpoint lookup {A} (m : id) (l : list (id * A)) : option A :=
  match l with
  | [] => None
  | (k, a) :: l => if k =? m then Some a else lookup m l
  end.
(* tryMapMemoryNodeIdToOutput of the lambda entry split (MemoryStateOperations.cpp:342-361). *)
Definition split_output (m : id) (l : list id) : option inner :=
  if bool_decide (m ∈ l) then Some (SplitOut m) else None.

(* "or else the external memory node" (InvariantValueRedirection.cpp:367-376). *)
Definition orelse {A} (a b : option A) : option A := match a with Some _ => a | None => b end.

(* Whether memory node m is invariant between entry and exit (InvariantValueRedirection.cpp:359-383);
   ext is PointsToGraph::externalMemoryNode. *)
Definition invariant (ext : id) (entry : list id) (exit : list (id * inner)) (m : id) : bool :=
  match orelse (lookup m exit) (lookup ext exit), orelse (split_output m entry) (split_output ext entry) with
  | Some result, Some argument => bool_decide (result = argument)
  | _, _ => true
  end.

(* The second loop (InvariantValueRedirection.cpp:342-398). *)
Fixpoint redirect_states (ext : id) (entry : list id) (exit : list (id * inner)) (merge : list (id * nat)) (ms : list id) : list (diverted * nat) :=
  match ms with
  | [] => []
  | m :: ms =>
    let rest := redirect_states ext entry exit merge ms in
    if m =? ext then rest
    else if invariant ext entry exit m then
      match lookup m merge with Some o => (ExitOut m, o) :: rest | None => rest end
    else rest
  end.

(* tryGetMemoryStateExitSplit after the first loop: an exit split whose origin
   was diverted is no longer a user of the call's memory state output. *)
Definition memory_diverted (c : call) (ds : list (diverted * nat)) : bool :=
  existsb (fun d => match d with (CallOut n, _) => S n =? length (outputs c) | _ => false end) ds.

(* redirectCallOutputs (InvariantValueRedirection.cpp:281-399) of a non-recursive direct call of lambda l. *)
Definition redirect_call (otype : nat -> ty) (ext : id) (l : lambda) (c : call) : outcome :=
  if negb (length (operands c) =? length (params l)) then Done []
  else
    match redirect_results otype l (operands c) 0 (outputs c) with
    | Done ds =>
      if memory_diverted c ds then Done ds
      else
        match exit_split c, entry_merge c, entry_split l, exit_merge l with
        | Some ms, Some merge, Some entry, Some exit => Done (ds ++ redirect_states ext entry exit merge ms)
        | _, _, _, _ => Done ds
        end
    | r => r
    end.
