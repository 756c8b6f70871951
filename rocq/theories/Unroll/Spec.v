(** What such a loop means, on integers modulo 2^width, independently of the
    bit-vector code. *)
From Coq Require Import ZArith List Bool.
From Verif.Bits Require Import Model Spec.
From Verif.Unroll Require Import Model.
Local Open Scope Z_scope.

(** two's complement reading of a residue *)
Definition signed (n : nat) (x : Z) : Z := if 2 * x <? 2 ^ Z.of_nat n then x else x - 2 ^ Z.of_nat n.
Definition holds (n : nat) (c : cmpop) (a b : Z) : bool :=
  match c with
  | Eq => a =? b | Ne => negb (a =? b)
  | Ult => a <? b | Ule => a <=? b | Ugt => b <? a | Uge => b <=? a
  | Slt => signed n a <? signed n b | Sle => signed n a <=? signed n b
  | Sgt => signed n b <? signed n a | Sge => signed n b <=? signed n a
  end.
Section Loop.
  Variable l : loop.
  Definition m := 2 ^ Z.of_nat (width l).
  (** the induction variable after one more iteration *)
  Definition next (x : Z) : Z :=
    (if additive l then x + uval (step l)
     else if idv_first l then x - uval (step l) else uval (step l) - x) mod m.
  (** is the loop repeated when the updated variable is x and the end value is e? *)
  Definition repeats (e x : Z) : bool :=
    Bool.eqb (if end_first l then holds (width l) (compare l) e x else holds (width l) (compare l) x e) (repeat_on l).
  (** the do-while loop runs exactly k iterations *)
  Definition trip_count (k : Z) : Prop :=
    1 <= k /\
    (forall j, (1 <= Z.of_nat j < k) -> repeats (uval (end_ l)) (Nat.iter j next (uval (init l))) = true) /\
    repeats (uval (end_ l)) (Nat.iter (Z.to_nat k) next (uval (init l))) = false.

  (** execution: the state is the induction variable and the values of the
      other loop variables; g is the rest of the body *)
  Variable S : Type.
  Variable g : Z -> S -> S.
  Definition body (st : Z * S) : Z * S := (next (fst st), g (fst st) (snd st)).
  Inductive dowhile (f : Z * S -> Z * S) (e : Z) : Z * S -> Z * S -> Prop :=
  | dw_stop st : repeats e (fst (f st)) = false -> dowhile f e st (f st)
  | dw_again st st' : repeats e (fst (f st)) = true -> dowhile f e (f st) st' -> dowhile f e st st'.
  (** the original theta *)
  Definition original (st st' : Z * S) : Prop := dowhile body (uval (end_ l)) st st'.
  (** the code it is replaced with *)
  Definition transformed (factor : Z) (p : plan) (st st' : Z * S) : Prop :=
    match p with
    | Full copies => st' = Nat.iter (Z.to_nat copies) body st
    | Looped e rem =>
      exists ne nr st1, e = known ne /\ rem = known nr /\
        dowhile (Nat.iter (Z.to_nat (body_copies factor)) body) (uval ne) st st1 /\
        if uval nr =? 0 then st' = st1
        else if uval nr =? 1 then st' = Nat.iter (Z.to_nat (body_copies 1)) body st1
        else original st1 st'
    end.

  (** unroll.cpp:352-476 unroll_unknown_theta.  The tests it builds are
      cmp(idv +/- step * factor, end) (create_unrolled_gamma_predicate,
      create_unrolled_theta_predicate) and cmp(idv, end)
      (create_residual_gamma_predicate); the operand order is fixed and the
      match maps 1 to "yes" whatever the original loop has. *)
  Definition ahead_test (factor : Z) (x : Z) : bool :=
    holds (width l) (compare l)
      (if additive l then (x + (uval (step l) * factor) mod m) mod m else (x - (uval (step l) * factor) mod m) mod m)
      (uval (end_ l)).
  Inductive aheadloop (factor : Z) (f : Z * S -> Z * S) : Z * S -> Z * S -> Prop :=
  | al_stop st : ahead_test factor (fst (f st)) = false -> aheadloop factor f st (f st)
  | al_again st st' : ahead_test factor (fst (f st)) = true -> aheadloop factor f (f st) st' -> aheadloop factor f st st'.
  Definition residual (st st' : Z * S) : Prop :=
    if holds (width l) (compare l) (fst st) (uval (end_ l)) then original st st' else st' = st.
  Definition transformed_unknown (factor : Z) (st st' : Z * S) : Prop :=
    exists st1,
      (if ahead_test factor (fst st)
       then aheadloop factor (Nat.iter (Z.to_nat (body_copies factor)) body) st st1 else st1 = st) /\
      residual st1 st'.
End Loop.

(** run-time values for which the loop produced for unknown boundaries is
    right: counting up by addition from below the end value, with room for
    [factor] more steps above the end value *)
Definition counts_up_with_room (l : loop) (factor : Z) : Prop :=
  additive l = true /\ uval (step l) <> 0 /\ repeat_on l = true /\ end_first l = false /\
  let I := uval (init l) in let E := uval (end_ l) in let n := Z.of_nat (width l) in
  let sI := signed (width l) I in let sE := signed (width l) E in
  match compare l with
  | Ult => I < E /\ E + factor * uval (step l) <= 2 ^ n
  | Ule => I <= E /\ E + 1 + factor * uval (step l) <= 2 ^ n
  | Slt => sI < sE /\ sE + factor * uval (step l) <= 2 ^ (n - 1)
  | Sle => sI <= sE /\ sE + 1 + factor * uval (step l) <= 2 ^ (n - 1)
  | _ => False
  end.

(** the loops for which the computed trip count is right: an addition counting
    up towards the end value without passing the largest representable number *)
Definition counts_up (l : loop) : Prop :=
  additive l = true /\ uval (step l) <> 0 /\ repeat_on l = true /\
  let I := uval (init l) in let E := uval (end_ l) in
  let sI := signed (width l) I in let sE := signed (width l) E in
  match compare l, end_first l with
  | Ne, _ => I <> E
  | Ult, false | Ugt, true => I < E
  | Ule, false | Uge, true => I <= E < 2 ^ Z.of_nat (width l) - 1
  | Slt, false | Sgt, true => sI < sE
  | Sle, false | Sge, true => sI <= sE < 2 ^ (Z.of_nat (width l) - 1) - 1
  | _, _ => False
  end.
Definition well_typed (l : loop) : Prop :=
  (0 < width l)%nat /\ length (init l) = width l /\ length (step l) = width l /\ length (end_ l) = width l.
