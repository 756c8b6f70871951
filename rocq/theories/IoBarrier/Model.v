(* Model of jlm/llvm/opt/IOBarrierElimination.cpp on the region of a lambda
   node. *)
From stdpp Require Import base list.

(* Origins: an argument of the lambda, or output k of node n.  The nodes of the
   region are numbered. *)
Inductive origin :=
| Arg (i : nat)
| Out (n k : nat).
Global Instance origin_eq_dec : EqDecision origin.
Proof. solve_decision. Defined.

(* Nodes: a LoadNonVolatileOperation with its address, the size of the loaded
   type (GetTypeStoreSize, types.cpp:386) and its memory states, an
   IOBarrierOperation with the barred value and the IO state
   (IOBarrier.hpp:69-84), and any other node with its operands, of which the
   pass knows nothing: structural nodes other than lambda and phi nodes are
   not entered (IOBarrierElimination.cpp:151-189). *)
Inductive node :=
| Load (address : origin) (size : nat) (states : list origin)
| Barrier (barred io : origin)
| OtherNode (operands : list origin).
Definition graph := list node.

(* TryGetSimpleNodeAndOptionalOp<IOBarrierOperation> of an address. *)
Definition barrier_of (g : graph) (a : origin) : option (origin * origin) :=
  match a with
  | Out n _ => match g !! n with Some (Barrier v io) => Some (v, io) | _ => None end
  | Arg _ => None
  end.

(* Context (IOBarrierElimination.cpp:62-107): the map of dereferenceable outputs. *)
Definition context := origin -> option nat.
Definition empty : context := fun _ => None.
(* Context::markDereferenceable (IOBarrierElimination.cpp:70-84). *)
Definition mark_dereferenceable (c : context) (o : origin) (size : nat) : context :=
  fun o' => if decide (o' = o)
            then match c o with None => Some size | Some s => if s <? size then Some size else Some s end
            else c o'.

(* markNode (IOBarrierElimination.cpp:148-190) of a load; is the IO state of
   the barrier an argument of the lambda? *)
Definition mark_node (g : graph) (c : context) (x : node) : context :=
  match x with
  | Load a size _ =>
    match barrier_of g a with
    | Some (v, Arg _) => mark_dereferenceable c v size
    | Some (_, Out _ _) => c
    | None => mark_dereferenceable c a size
    end
  | _ => c
  end.
(* markRegion (IOBarrierElimination.cpp:139-146); the nodes are listed in the
   order of the traverser. *)
Definition mark_region (g : graph) : context := fold_left (mark_node g) g empty.

(* sweepRegion (IOBarrierElimination.cpp:192-228) of a node. *)
Definition sweep_node (g : graph) (c : context) (x : node) : node :=
  match x with
  | Load a size states =>
    match barrier_of g a with
    | Some (v, _) =>
      match c v with
      | Some s => if s <? size then x else Load v size states
      | None => x
      end
    | None => x
    end
  | _ => x
  end.
(* Run (IOBarrierElimination.cpp:115-137) on the region; region.prune, which
   removes barriers that are left without users, is not modelled. *)
Definition eliminate (g : graph) : graph := sweep_node g (mark_region g) <$> g.
