(** Where a pointer can point. *)
From stdpp Require Import base list.
From Verif.AllocaSplit Require Import Model.

(** An address: an alloca and the indices of the element in it. *)
Inductive points (p : prog) : nat -> nat * list nat -> Prop :=
  | points_alloca v : defs p !! v = Some Alloca -> points p v (v, [])
  | points_gep v u idx a path : defs p !! v = Some (Gep u idx) -> points p u (a, path) -> points p v (a, path ++ idx)
  | points_copy v us u x : defs p !! v = Some (Copies us) -> u ∈ us -> points p u x -> points p v x
  | points_element v a idx : defs p !! v = Some (Element a idx) -> points p v (a, idx).

(** The pointers that hold a copy of pointer v. *)
Inductive copy_of (p : prog) (v : nat) : nat -> Prop :=
  | copy_refl : copy_of p v v
  | copy_step u w us : copy_of p v u -> defs p !! w = Some (Copies us) -> u ∈ us -> copy_of p v w.

(** A copy of the address of alloca a is a copy of no other pointer. *)
Definition exclusive (p : prog) : Prop := forall a v us u, splitable p a = true -> copy_of p a v ->
  defs p !! v = Some (Copies us) -> u ∈ us -> copy_of p a u.
(** No alloca has been split yet. *)
Definition unsplit (p : prog) : Prop := forall v a idx, defs p !! v <> Some (Element a idx).

(** All parts of a type of aggregate type are structs. *)
Fixpoint structs_only (t : type) : Prop :=
  match t with
  | Struct ts => (fix elements (ts : list type) : Prop := match ts with [] => True | t :: ts => (is_aggregate t = true -> structs_only t) /\ elements ts end) ts
  | Array => False
  | Scalar => True
  end.

(** The pointers computed from the address of alloca v. *)
Inductive derived (p : prog) (v : nat) : nat -> Prop :=
  | derived_refl : derived p v v
  | derived_gep u w idx : derived p v u -> defs p !! w = Some (Gep u idx) -> derived p v w
  | derived_copy u w us : derived p v u -> defs p !! w = Some (Copies us) -> u ∈ us -> derived p v w.

(** The part of a type that indices select. *)
Inductive part : type -> list nat -> type -> Prop :=
  | part_here t : part t [] t
  | part_element ts i t path u : ts !! i = Some t -> part t path u -> part (Struct ts) (i :: path) u.
