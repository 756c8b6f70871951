(** Specification of bit vectors, independent of the code: fully known values
    are lists of booleans, least significant first, with their unsigned and
    signed (two's complement) readings. *)
From Coq Require Import ZArith List Bool.
From Verif.Bits Require Import Model.
Import ListNotations.
Local Open Scope Z_scope.

Fixpoint uval (l : list bool) : Z :=
  match l with
  | [] => 0
  | b :: l => (if b then 1 else 0) + 2 * uval l
  end.
Definition modulus (l : list bool) : Z := 2 ^ Z.of_nat (length l).
Definition sval (l : list bool) : Z :=
  if 2 * uval l <? modulus l then uval l else uval l - modulus l.

(** the representation of a fully known value *)
Definition known1 (b : bool) : bit := if b then B1 else B0.
Definition known (l : list bool) : bits := map known1 l.

(** [refines c a]: the concrete value c is one of the values that the possibly
    unknown value a stands for: it agrees with a on all known bits. *)
Definition refines1 (c : bool) (a : bit) : Prop :=
  match a with B0 => c = false | B1 => c = true | _ => True end.
Definition refines (c : list bool) (a : bits) : Prop := Forall2 refines1 c a.

(** An evaluator [op] is sound with respect to unknown bits when every answer it
    gives on partly unknown operands is confirmed by every way of filling the
    operands in: the fully known evaluation succeeds and agrees with the answer
    on each bit the answer claims to know.  (No object has zero bits.) *)
Definition sound_unary (op : bits -> option bits) : Prop :=
  forall a ca r, a <> [] -> refines ca a -> op a = Some r ->
    exists cr, op (known ca) = Some (known cr) /\ refines cr r.
Definition sound_binary (op : bits -> bits -> option bits) : Prop :=
  forall a b ca cb r, a <> [] -> b <> [] -> refines ca a -> refines cb b -> op a b = Some r ->
    exists cr, op (known ca) (known cb) = Some (known cr) /\ refines cr r.
Definition sound_compare (op : bits -> bits -> option bit) : Prop :=
  forall a b ca cb r, a <> [] -> b <> [] -> refines ca a -> refines cb b -> op a b = Some r ->
    exists cr, op (known ca) (known cb) = Some (known1 cr) /\ refines1 cr r.
(** undefined bits ('X') never appear out of defined operands *)
Definition defined (v : bits) : Prop := ~ In BX v.
Definition keeps_defined (op : bits -> bits -> option bits) : Prop :=
  forall a b r, a <> [] -> b <> [] -> defined a -> defined b -> op a b = Some r -> defined r.
