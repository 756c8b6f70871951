(** What a region computes. *)
From stdpp Require Import base list gmap.
From Coq Require Import ZArith.
From Verif.LocalRegion Require Import Model.

(** control values, integers of w bits (unsigned reading), and everything else: floating point numbers, pointers, states... *)
Inductive val := VCtl (k : nat) | VInt (w z : Z) | VAny (n : nat).
Definition alternative (m : list (Z * nat)) (d : nat) (z : Z) : nat := match list_find (fun p => p.1 = z) m with Some (_, p) => p.2 | None => d end.
Section Sem.
  (** [other]: what the other operations compute; [content]: the value of the match content argument *)
  Context (other : nat -> list val -> option (list val)) (content : val -> val).
  Definition op_sem (o : op) (vs : list val) : option (list val) :=
    match o, vs with
    | OCtl k, [] => Some [VCtl k]
    | OInt w z, [] => Some [VInt w z]
    | OMatch w m d, [VInt w' z] => if decide (w' = w /\ (0 <= z < 2 ^ w)%Z) then Some [VCtl (alternative m d z)] else None
    | OSelect, [VInt w z; a; b] => if decide (w = 1%Z) then Some [if decide (z = 0%Z) then b else a] else None
    | OEq w, [VInt w1 z1; VInt w2 z2] => if decide (w1 = w /\ w2 = w) then Some [VInt 1 (if decide (z1 = z2) then 1 else 0)] else None
    | OCtlToInt, [VCtl k] => if decide (k < 2)%nat then Some [VInt 1 (Z.of_nat k)] else None
    | OOther id, vs => other id vs
    | _, _ => None
    end.
  (** a node takes the values vs to the values ws; a region does, with all its nodes; a loop runs its body until the predicate is 0 *)
  Inductive eval : kind -> list val -> list val -> Prop :=
    | e_simple o vs ws : op_sem o vs = Some ws -> eval (KSimple o) vs ws
    | e_gamma subs k r vs ws : subs !! k = Some r -> runs r (content (VCtl k) :: vs) ws -> eval (KGamma subs) (VCtl k :: vs) ws
    | e_theta body vs ws : loops body vs ws -> eval (KTheta body) vs ws
  with runs : region -> list val -> list val -> Prop :=
    | r_region args ns res (rho : nat -> val) : (forall n, n ∈ ns -> eval (nkind n) (map rho (nins n)) (map rho (nouts n))) -> runs (Region args ns res) (map rho args) (map rho res)
  with loops : region -> list val -> list val -> Prop :=
    | l_exit body vs ws : runs body vs (VCtl 0 :: ws) -> loops body vs ws
    | l_again body vs us ws : runs body vs (VCtl 1 :: us) -> loops body us ws -> loops body vs ws.
  (** rho gives values to the outputs such that the node is right *)
  Definition holds (rho : nat -> val) (n : node) : Prop := eval (nkind n) (map rho (nins n)) (map rho (nouts n)).
  Definition hold (rho : nat -> val) (l : list node) : Prop := forall n, n ∈ l -> holds rho n.
  (** two regions compute the same *)
  Definition same (r r' : region) : Prop := forall vs ws, runs r vs ws <-> runs r' vs ws.
End Sem.
(** all names are different, and smaller than next *)
Definition names (r : region) : list nat := rargs r ++ all_outs (rnodes r).
Definition below (next : nat) (r : region) : Prop := (forall x, x ∈ names r -> x < next) /\ (forall n x, n ∈ rnodes r -> x ∈ nins n -> x ∈ names r) /\ (forall x, x ∈ rres r -> x ∈ names r).
