(** Model of jlm/llvm/opt/unroll.{hpp,cpp}: LoopUnrollInfo::niterations and the
    unrolling of thetas with known boundaries.

    The theta has the shape LoopUnrollInfo::create (unroll.cpp:138-180) accepts:
    one induction variable idv, updated by bitadd/bitsub with a loop invariant
    step, compared with a loop invariant end, the comparison feeding a match
    whose result is the repetition predicate.  create accepts both operand
    orders of the arithmetic and of the comparison, and any match; these are the
    Boolean fields below.  The constants are the traced init/step/end values,
    all known (LoopUnrollInfo::is_known). *)
From Coq Require Import ZArith List Bool.
From Verif.Bits Require Import Model Spec.
Import ListNotations.
Local Open Scope Z_scope.

(** the BitCompareOperation classes (jlm/rvsdg/bitstring/comparison.hpp) *)
Inductive cmpop := Eq | Ne | Ult | Ule | Ugt | Uge | Slt | Sle | Sgt | Sge.

Record loop := {
  width : nat;
  additive : bool;      (** armnode is bitadd_op (else bitsub_op) *)
  idv_first : bool;     (** idv is operand 0 of armnode *)
  compare : cmpop;
  end_first : bool;     (** end is operand 0 of cmpnode *)
  repeat_on : bool;     (** comparison result on which the match selects "repeat" *)
  init : list bool;
  step : list bool;
  end_ : list bool }.

(** unroll.cpp:49-56 is_eqcmp *)
Definition is_eqcmp (c : cmpop) : bool :=
  match c with Uge | Sge | Ule | Sle => true | _ => false end.

(** BitValueRepresentation::operator==(int64_t) (value-representation.hpp:302-306) for value 0 *)
Definition is_zero (v : bits) : bool := forallb (fun b => bit_eqb b B0) v.

(** unroll.cpp:112-136 niterations. [None] is nullptr.  "step_value() == 0"
    compares a pointer, so with is_known() it is never true.  All widths agree,
    so the throwing cases of the operations cannot occur. *)
Definition bind {A B} (o : option A) (f : A -> option B) : option B :=
  match o with Some a => f a | None => None end.
Definition niterations (l : loop) : option bits :=
  let start := if additive l then known (init l) else known (end_ l) in
  let stp := if additive l then known (step l) else neg (known (step l)) in
  let fin := if additive l then known (end_ l) else known (init l) in
  bind (if is_eqcmp (compare l) then bind (of_int (width l) 1) (add fin) else Some fin) (fun fin =>
  bind (sub fin start) (fun range =>
  if is_negative range then None
  else bind (umod range stp) (fun m =>
       if negb (is_zero m) then None else udiv range stp))).

(** unroll.cpp:184-200 unroll_body, 207-219 copy_body_and_unroll: the number of
    copies of the body that are made; size_t arithmetic. *)
Definition body_copies (factor : Z) : Z := (factor - 1) mod 2 ^ 64 + 1.

(** unroll.cpp:317-350 unroll_known_theta, 224-269 unroll_theta, 274-310 add_remainder:
    what the theta is replaced with. *)
Inductive plan :=
| Full (copies : Z)                       (** straight-line copies of the body *)
| Looped (new_end : bits) (rem : bits).   (** unrolled theta with this end value, then the epilogue *)
Definition unroll_known (l : loop) (factor : Z) : option plan :=
  bind (niterations l) (fun k =>
  bind (of_int (width l) factor) (fun f =>
  bind (ule k f) (fun c =>
  if bit_eqb c B1 then bind (to_uint k) (fun k => Some (Full (body_copies k)))
  else bind (umod k f) (fun rem =>
       if is_zero rem then Some (Looped (known (end_ l)) rem)
       else let sv := if additive l then known (step l) else neg (known (step l)) in
            bind (mul rem sv) (fun t =>
            bind (if additive l then sub (known (end_ l)) t else add (known (end_ l)) t) (fun e =>
            Some (Looped e rem))))))).
