(** Model of jlm/util/Math.hpp. *)
From Coq Require Import ZArith Bool Lia.
Local Open Scope Z_scope.

(** A C++ integer type that is not promoted: signedness and width in bits. *)
Record ity := Ity { is_signed : bool; width : Z }.
Definition tmin (t : ity) : Z := if is_signed t then - 2 ^ (width t - 1) else 0.
Definition tmax (t : ity) : Z := if is_signed t then 2 ^ (width t - 1) - 1 else 2 ^ width t - 1.
Definition in_range (t : ity) (z : Z) : Prop := tmin t <= z <= tmax t.
Definition in_rangeb (t : ity) (z : Z) : bool := (tmin t <=? z) && (z <=? tmax t).

(** Result of an arithmetic operator: unsigned types wrap, signed overflow is
    undefined behaviour ([None]). *)
Definition arith (t : ity) (z : Z) : option Z :=
  if is_signed t then (if in_rangeb t z then Some z else None)
  else Some (z mod 2 ^ width t).

(** Conversion to the type (modular, as on every supported compiler). *)
Definition convert (t : ity) (z : Z) : Z :=
  if is_signed t
  then (z + 2 ^ (width t - 1)) mod 2 ^ width t - 2 ^ (width t - 1)
  else z mod 2 ^ width t.

(** Math.hpp:26-35 log2Floor.  The recursion halves a positive value; [fuel]
    bounds it by the width of the type. *)
Fixpoint log2Floor_loop (fuel : nat) (value : Z) : option Z :=
  if value <? 1 then Some (-1)
  else match fuel with
       | O => None
       | S fuel => match log2Floor_loop fuel (Z.shiftr value 1) with
                   | Some r => Some (1 + r)
                   | None => None
                   end
       end.
Definition log2Floor (t : ity) (value : Z) : option Z :=
  log2Floor_loop (Z.to_nat (width t)) value.

(** T(1) << n: undefined if n is negative or not below the width; otherwise the
    result is converted to T (C++17 [expr.shift], 1 << (width-1) is the minimum
    of a signed type). *)
Definition shl_one (t : ity) (n : Z) : option Z :=
  if (n <? 0) || (width t <=? n) then None else Some (convert t (2 ^ n)).

(** Math.hpp:49-58 RoundUpToPowerOf2 *)
Definition RoundUpToPowerOf2 (t : ity) (value : Z) : option Z :=
  if value <=? 1 then Some 1
  else match log2Floor t (value - 1) with
       | Some l => shl_one t (l + 1)
       | None => None
       end.

(** Math.hpp:73-83 RoundUpToMultipleOf.  C++ % truncates; % 0 is undefined. *)
Definition RoundUpToMultipleOf (t : ity) (value multiple : Z) : option Z :=
  if multiple =? 0 then None
  else
    let miss := Z.rem value multiple in
    if miss <? 0 then arith t (value - miss)
    else if miss =? 0 then Some value
    else match arith t (value + multiple) with
         | Some s => arith t (s - miss)
         | None => None
         end.

(** Math.hpp:95-101 BitsRequiredToRepresent *)
Definition BitsRequiredToRepresent (t : ity) (value : Z) : option Z :=
  let u := Ity false (width t) in
  match log2Floor u (convert u value) with
  | Some l => Some (l + 1)
  | None => None
  end.

Definition int64 : ity := Ity true 64.
Definition uint64 : ity := Ity false 64.

(** Math.hpp:133-141 truncateAndSignExtend; [None] when the shift amount is 64.
    The left shift of a negative value is modular, as gcc and clang define it. *)
Definition truncateAndSignExtend (value keepBits : Z) : option Z :=
  let extendBits := 64 - keepBits in
  if 64 <=? extendBits then None
  else Some (Z.shiftr (convert int64 (value * 2 ^ extendBits)) extendBits).

(** Math.hpp:155-163 truncateAndZeroExtend *)
Definition truncateAndZeroExtend (value keepBits : Z) : option Z :=
  let extendBits := 64 - keepBits in
  if 64 <=? extendBits then None
  else Some (convert int64
         (Z.shiftr (convert uint64 (convert uint64 value * 2 ^ extendBits)) extendBits)).
