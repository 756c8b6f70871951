(** What the value of an index is, and what address a GetElementPtr computes. *)
From stdpp Require Import base list option.
From Coq Require Import ZArith.
From Verif.Types Require Import Model Spec.
From Verif.AliasQuery Require Import ModelGep.
Local Open Scope Z_scope.

Definition width (e : iexp) : Z := match e with CInt w _ _ | COpaque w => w | CSext _ d _ | CZext _ d _ | CTrunc _ d _ => d end.
(** the unsigned reading of the value of e, if it is a constant *)
Fixpoint value (e : iexp) : option Z :=
  match e with
  | CInt _ v known => if known then Some v else None
  | CSext src dst e => v ← value e; Some ((if 2 ^ (src - 1) <=? v then v - 2 ^ src else v) mod 2 ^ dst)
  | CZext _ _ e => value e
  | CTrunc _ dst e => v ← value e; Some (v mod 2 ^ dst)
  | COpaque _ => None
  end.
Fixpoint well_typed (e : iexp) : Prop :=
  match e with
  | CInt w v _ => 1 <= w /\ 0 <= v < 2 ^ w
  | CSext src dst e | CZext src dst e => well_typed e /\ width e = src /\ 1 <= src < dst
  | CTrunc src dst e => well_typed e /\ width e = src /\ 1 <= dst < src
  | COpaque w => 1 <= w
  end.
(** no extension of, and no truncation to, more than 64 bits *)
Fixpoint in_64_bits (e : iexp) : Prop :=
  match e with CInt _ _ _ | COpaque _ => True | CSext n _ e | CZext n _ e | CTrunc _ n e => n <= 64 /\ in_64_bits e end.
(** all constants have at most 64 bits *)
Fixpoint small_constants (e : iexp) : Prop := match e with CInt w _ _ => w <= 64 | COpaque _ => True | CSext _ _ e | CZext _ _ e | CTrunc _ _ e => small_constants e end.
(** where field i starts, in plain integer arithmetic *)
Definition plain_field (packed : bool) (fields : list ty) (i : nat) (t : ty) : Z :=
  ceil_to (fields_end packed (map (fun t => (plain_alloc t, plain_align t)) (take i fields))) (if packed then 1 else plain_align t).
(** the offset of the element named by the indices inside a value of type t; vectors are not covered *)
Fixpoint plain_intra (t : ty) (indices : list Z) : option Z :=
  match indices with
  | [] => Some 0
  | i :: indices =>
      match t with
      | TArray _ e => r ← plain_intra e indices; Some (i * plain_alloc e + r)
      | TStruct _ packed _ fields => if i <? 0 then None else f ← fields !! Z.to_nat i; r ← plain_intra f indices; Some (plain_field packed fields (Z.to_nat i) f + r)
      | _ => None
      end
  end.
Definition plain_gep (t : ty) (indices : list Z) : option Z := match indices with [] => None | i :: indices => r ← plain_intra t indices; Some (i * plain_alloc t + r) end.
