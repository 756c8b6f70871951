(** What it means to traverse a region while it is edited. *)
From stdpp Require Import base list gmap.
From Verif.Region Require Import Model Spec Properties.
From Verif.Traverser Require Import Model.

(** a region that some history of legal commands can build *)
Definition built (r : region) : Prop := exists t : unit, reachable (fun _ _ t => t) (r, t).

(** [m] depends on [n]: an input of [m] has an output of [n] as origin (Region/Spec.v: [uses]). *)

(** A traversal: a traverser is created on [r0]; then calls of next() and legal
    commands alternate in any order.  The list holds the ids of the nodes that
    next() has returned, in this order.  [ok] restricts the commands. *)
Inductive td_run (ok : command -> region -> Prop) (r0 : region) : region * tracker -> list nat -> Prop :=
| td_start : td_run ok r0 (r0, td_init r0) []
| td_edit c s s' ids : td_run ok r0 s ids -> legal c s.1 -> ok c s.1 -> exec td_obs c s = Ok s' \/ exec td_obs c s = Throws s' -> td_run ok r0 s' ids
| td_returns fuel s s' n nd ids : td_run ok r0 s ids -> td_next (next_id r0) fuel s = Some (Some n, s') -> nodes s'.1 !! n = Some nd -> td_run ok r0 s' (ids ++ [nd_id nd])
| td_ends fuel s s' ids : td_run ok r0 s ids -> td_next (next_id r0) fuel s = Some (None, s') -> td_run ok r0 s' ids.
Inductive bu_run (ok : command -> region -> Prop) (r0 : region) : region * tracker -> list nat -> Prop :=
| bu_start : bu_run ok r0 (r0, bu_init r0) []
| bu_edit c s s' ids : bu_run ok r0 s ids -> legal c s.1 -> ok c s.1 -> exec bu_obs c s = Ok s' \/ exec bu_obs c s = Throws s' -> bu_run ok r0 s' ids
| bu_returns s s' n nd ids : bu_run ok r0 s ids -> bu_next s = (Some n, s') -> nodes s'.1 !! n = Some nd -> bu_run ok r0 s' (ids ++ [nd_id nd])
| bu_ends s s' ids : bu_run ok r0 s ids -> bu_next s = (None, s') -> bu_run ok r0 s' ids.

Definition anything : command -> region -> Prop := fun _ _ => True.
(** RemoveInputs takes away one input at a time *)
Definition one_at_a_time (c : command) (r : region) : Prop :=
  match c with
  | CRemoveInputs p ix => forall nd k k', nodes r !! p = Some nd -> k ∈ ix -> k' ∈ ix -> k < length (nd_inputs nd) -> k' < length (nd_inputs nd) -> k = k'
  | _ => True
  end.
(** no node is created *)
Definition no_creation (c : command) (_ : region) : Prop :=
  match c with CCreateSimple _ _ _ _ _ | CCreateStructural _ _ => False | _ => True end.

(** A traversal without edits: for (auto & node : Traverser(&region)) *)
Fixpoint drain (next : region * tracker -> option (option ptr * (region * tracker))) (fuel : nat) (s : region * tracker) : option (list ptr) :=
  match next s with
  | None => None
  | Some (None, _) => Some []
  | Some (Some n, s') => match fuel with O => None | S fuel => (cons n) <$> drain next fuel s' end
  end.
Definition td_nodes (r : region) : option (list ptr) :=
  drain (td_next (next_id r) (size (nodes r))) (size (nodes r)) (r, td_init r).
Definition bu_nodes (r : region) : option (list ptr) :=
  drain (fun s => Some (bu_next s)) (size (nodes r)) (r, bu_init r).
(** [l] lists every node of [r] once, and whatever [dep n m] holds for comes as [m], then [n] *)
Definition ordered_by (dep : ptr -> ptr -> Prop) (r : region) (l : list ptr) : Prop :=
  NoDup l /\ (forall n, n ∈ l <-> is_node r n) /\
  forall k n m, l !! k = Some n -> dep n m -> exists j, j < k /\ l !! j = Some m.
