(** What calls do. *)
From stdpp Require Import base list gmap.
From Verif.LocalRegion Require Import Model Spec.
From Verif.Sinking Require Import Spec.
From Verif.Hoisting Require Import Model Spec.

Section Sem.
  Context (other : nat -> list val -> option (list val)) (content : val -> val).
  (** the operation id calls the function with the region callee, whose context variables have the values cx: whatever function value, then the arguments, it takes *)
  Definition calls (id : nat) (callee : region) (cx : list val) : Prop := forall fv vs ws, other id (fv :: vs) = Some ws <-> LocalRegion.Spec.runs other content callee (vs ++ cx) ws.
  (** an I/O barrier hands on its first operand *)
  Definition barrier (bar : nat) : Prop := forall v io, other bar [v; io] = Some [v].
  (** the same is computed, when the additional arguments of r' have the values cx *)
  Definition same_with (cx : list val) (r r' : region) : Prop := forall vs ws, LocalRegion.Spec.runs other content r vs ws <-> LocalRegion.Spec.runs other content r' (vs ++ cx) ws.
End Sem.
(** the nodes of a region come after those whose outputs they use *)
Definition in_order (r : region) : Prop := forall l1 n l2 x, rnodes r = l1 ++ n :: l2 -> x ∈ nins n -> x ∈ rargs r \/ x ∈ all_outs l1.
(** node j of the region at path w is a call, of the operation id *)
Definition call_at (r : region) (w : list (nat * nat)) (j id : nat) : Prop := exists s fn ops outs, inside r w s /\ rnodes s !! j = Some (Node (KSimple (OOther id)) (fn :: ops) outs).
