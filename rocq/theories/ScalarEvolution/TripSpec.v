(** Specification of trip counts. *)
From Coq Require Import ZArith List Bool Lia.
From stdpp Require Import tactics base list.
From Verif.ScalarEvolution Require Import Model Spec TripModel.
Local Open Scope Z_scope.

(** The comparisons of integers of [w] bits.  [x] and [y] stand for the integers
    of [w] bits equal to them modulo 2^w. *)
Definition unsigned (w : nat) (x : Z) : Z := x mod 2 ^ Z.of_nat w.
Definition signed (w : nat) (x : Z) : Z :=
  let u := unsigned w x in
  if u <? 2 ^ (Z.of_nat w - 1) then u else u - 2 ^ Z.of_nat w.
Definition compare (w : nat) (c : cmp) (x y : Z) : bool :=
  match c with
  | Slt => signed w x <? signed w y
  | Sle => signed w x <=? signed w y
  | Sgt => signed w y <? signed w x
  | Sge => signed w y <=? signed w x
  | Ult => unsigned w x <? unsigned w y
  | Ule => unsigned w x <=? unsigned w y
  | Ugt => unsigned w y <? unsigned w x
  | Uge => unsigned w y <=? unsigned w x
  | Ne => negb (unsigned w x =? unsigned w y)
  | Eq => unsigned w x =? unsigned w y
  end.

(** A loop whose condition is tested after each iteration, and has the value
    [again i] after iteration [i], executes exactly [n] iterations. *)
Definition trip_count (again : nat -> bool) (n : Z) : Prop :=
  exists m, n = Z.of_nat (S m) /\ (forall i, (i < m)%nat -> again i = true) /\ again m = false.
Definition endless (again : nat -> bool) : Prop := forall i, again i = true.

(** The comparison of unbounded integers. *)
Definition zcompare (c : cmp) (x y : Z) : bool :=
  match c with
  | Slt | Ult => x <? y
  | Sle | Ule => x <=? y
  | Sgt | Ugt => y <? x
  | Sge | Uge => y <=? x
  | Ne => negb (x =? y)
  | Eq => x =? y
  end.
(** [x] is the value of the integer of [w] bits, as [c] sees it. *)
Definition fits (w : nat) (c : cmp) (x : Z) : Prop :=
  match c with
  | Ult | Ule | Ugt | Uge => 0 <= x < 2 ^ Z.of_nat w
  | _ => - 2 ^ (Z.of_nat w - 1) <= x < 2 ^ (Z.of_nat w - 1)
  end.
(** Small enough for the arithmetic of the quadratic formula to be exact. *)
Definition small (z : Z) : Prop := - 2 ^ 22 < z < 2 ^ 22.
