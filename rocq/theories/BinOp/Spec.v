(** What expressions compute. *)
From Coq Require Import ZArith.
From stdpp Require Import base list.
From Verif.Bits Require Import Model Spec.
From Verif.BinOp Require Import Model.

Section Value.
  Context {V : Type} (f : nat -> V -> V -> V) (env : nat -> V).
  (** a flattened node applies the operation from left to right; it has operands *)
  Fixpoint value (t : term) : option V :=
    match t with
    | Leaf x => Some (env x)
    | Bin op a b => x ← value a; y ← value b; Some (f op x y)
    | Flat op l => vs ← mapM value l; match vs with [] => None | v :: vs => Some (foldl (f op) v vs) end
    end.
  (** what an operation with these operands computes *)
  Definition apply_op (op : nat) (operands : list term) : option V :=
    vs ← mapM value operands; match vs with [] => None | v :: vs => Some (foldl (f op) v vs) end.
End Value.
Definition associative {V} (g : V -> V -> V) : Prop := forall x y z, g x (g y z) = g (g x y) z.
Definition commutative {V} (g : V -> V -> V) : Prop := forall x y, g x y = g y x.
Inductive no_flat : term -> Prop := nf_leaf x : no_flat (Leaf x) | nf_bin op a b : no_flat a -> no_flat b -> no_flat (Bin op a b).

(** every flattened node has at least two operands *)
Inductive wide : term -> Prop :=
  | wide_leaf x : wide (Leaf x) | wide_bin op a b : wide a -> wide b -> wide (Bin op a b) | wide_flat op l : 2 <= length l -> Forall wide l -> wide (Flat op l).

Section Bits.
  Context (env : nat -> bits).
  (** the bits of an output *)
  Fixpoint bvalue (t : bterm) : option bits :=
    match t with
    | BVar x w => if decide (length (env x) = w /\ 0 < w) then Some (env x) else None
    | BConst v => if decide (0 < length v) then Some v else None
    | BSlice low high t => v ← bvalue t; slice v low high
    | BConcat l => @mapM _ _ _ bterm bits bvalue l ≫= (fun vs => match vs with [] => None | _ => Some (foldr concat_bits [] vs) end)
    end.
End Bits.

(** the integer operations of LLVM: the width and the value of the result, before reduction modulo the width; nothing when the result is undefined or poison *)
Local Open Scope Z_scope.
Definition llvm_result (op : intop) (a b : list bool) : option (nat * Z) :=
  let w := length a in
  let cmp (c : bool) := Some (1%nat, if c then 1 else 0) in
  match op with
  | IEq => cmp (uval a =? uval b) | INe => cmp (negb (uval a =? uval b))
  | ISge => cmp (sval a >=? sval b) | ISgt => cmp (sval a >? sval b) | ISle => cmp (sval a <=? sval b) | ISlt => cmp (sval a <? sval b)
  | IUge => cmp (uval a >=? uval b) | IUgt => cmp (uval a >? uval b) | IUle => cmp (uval a <=? uval b) | IUlt => cmp (uval a <? uval b)
  | IAdd => Some (w, uval a + uval b) | ISub => Some (w, uval a - uval b) | IMul => Some (w, uval a * uval b)
  | ISDiv => if sval b =? 0 then None else Some (w, Z.quot (sval a) (sval b))
  | ISRem => if sval b =? 0 then None else Some (w, Z.rem (sval a) (sval b))
  | IUDiv => if uval b =? 0 then None else Some (w, uval a / uval b)
  | IURem => if uval b =? 0 then None else Some (w, uval a mod uval b)
  | IShl => if uval b <? Z.of_nat w then Some (w, Z.shiftl (uval a) (uval b)) else None
  | ILShr => if uval b <? Z.of_nat w then Some (w, Z.shiftr (uval a) (uval b)) else None
  | IAShr => if uval b <? Z.of_nat w then Some (w, Z.shiftr (sval a) (uval b)) else None
  | IOr => Some (w, Z.lor (uval a) (uval b)) | IAnd => Some (w, Z.land (uval a) (uval b)) | IXor => Some (w, Z.lxor (uval a) (uval b))
  end.
