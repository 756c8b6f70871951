(** Model of the trip count prediction of jlm/llvm/opt/ScalarEvolution.cpp. *)
From Coq Require Import ZArith List Bool Lia.
From stdpp Require Import tactics base list.
From Verif.ScalarEvolution Require Import Model.
Local Open Scope Z_scope.

(** ScalarEvolution.cpp:417-429: the comparisons the prediction knows. *)
Inductive cmp := Slt | Sle | Ult | Ule | Sgt | Sge | Ugt | Uge | Ne | Eq.

(** size_t arithmetic. *)
Definition wrapu (z : Z) : Z := z mod 2 ^ 64.

(** * Double arithmetic (IEEE 754 binary64, round to nearest, ties to even) *)

(** [rne n d]: the integer nearest to n/d, for 0 <= n and 0 < d. *)
Definition rne (n d : Z) : Z :=
  let q := n / d in
  let r := n mod d in
  if 2 * r <? d then q
  else if d <? 2 * r then q + 1
  else if Z.even q then q else q + 1.
(** The exponent of n/d, for 0 < n and 0 < d: the greatest e with 2^e <= n/d. *)
Definition expo (n d : Z) : Z :=
  let e := Z.log2 n - Z.log2 d in
  if d * 2 ^ Z.max 0 e <=? n * 2 ^ Z.max 0 (- e) then e else e - 1.
(** The double nearest to n/d, for 0 < n and 0 < d, as mantissa and scale:
    m * 2^(-s).  (The quotients that occur are far from overflow and underflow.) *)
Definition fl_quot (n d : Z) : Z * Z :=
  let s := 52 - expo n d in
  (rne (n * 2 ^ Z.max 0 s) (d * 2 ^ Z.max 0 (- s)), s).
(** The smallest integer that is not below m * 2^(-s). *)
Definition ceil_fl (x : Z * Z) : Z :=
  let '(m, s) := x in - (- (m * 2 ^ Z.max 0 (- s)) / 2 ^ Z.max 0 s).
Definition floor_fl (x : Z * Z) : Z :=
  let '(m, s) := x in (m * 2 ^ Z.max 0 (- s)) / 2 ^ Z.max 0 s.
(** Conversion of an int64_t to double (an integer again). *)
Definition to_double (z : Z) : Z :=
  if z =? 0 then 0 else Z.sgn z * floor_fl (fl_quot (Z.abs z) 1).
(** std::ceil(static_cast<double>(n) / d), for d <> 0. *)
Definition ceil_div_double (n d : Z) : Z :=
  let n := to_double n in
  let d := to_double d in
  if n =? 0 then 0
  else if Z.sgn n =? Z.sgn d then ceil_fl (fl_quot (Z.abs n) (Z.abs d))
  else - floor_fl (fl_quot (Z.abs n) (Z.abs d)).
(** std::floor(std::sqrt(d)), for 0 <= d. *)
Definition floor_sqrt_double (d : Z) : Z :=
  let d := to_double d in
  if d =? 0 then 0 else
  let s := 52 - Z.log2 d / 2 in
  let t := Z.sqrt (d * 4 ^ s) in
  let m := if t * t + t <? d * 4 ^ s then t + 1 else t in
  m / 2 ^ s.

(** * ScalarEvolution.cpp:322-398 IsStepNegative, IsStepPositive, IsStepZero.
    The step is given by the operands after the first: one constant, or two. *)
Definition step_negative (step : list Z) : bool :=
  match step with
  | [a] => a <? 0
  | [a; b] => (a <=? 0) && (b <=? 0) && negb ((a =? 0) && (b =? 0))
  | _ => false
  end.
Definition step_positive (step : list Z) : bool :=
  match step with
  | [a] => 0 <? a
  | [a; b] => (0 <=? a) && (0 <=? b) && negb ((a =? 0) && (b =? 0))
  | _ => false
  end.
Definition step_zero (step : list Z) : bool :=
  match step with
  | [a] => a =? 0
  | [a; b] => (a =? 0) && (b =? 0)
  | _ => false
  end.

(** What a prediction can end with: [Crash] is a division by zero. *)
Inductive prediction := Count (n : Z) | NoCount | Crash.

(** ScalarEvolution.cpp:695-765 SolveQuadraticEquation.  Integer division and
    remainder truncate. *)
Definition SolveQuadraticEquation (a b c : Z) : prediction :=
  let '(a, b, c) := if a <? 0 then (wrap64 (- a), wrap64 (- b), wrap64 (- c)) else (a, b, c) in
  let d := wrap64 (b * b - 4 * a * c) in
  if d <? 0 then NoCount else
  let sq := floor_sqrt_double d in
  let inexact := negb (wrap64 (sq * sq) =? d) in
  let sq := if d <? wrap64 (sq * sq) then sq - 1 else sq in
  if 2 * a =? 0 then Crash else
  let '(x, rem) :=
    if b <? 0
    then (Z.quot (- b - (sq + (if inexact then 1 else 0))) (2 * a), Z.rem (- b - sq) (2 * a))
    else (Z.quot (- b + sq) (2 * a), Z.rem (- b + sq) (2 * a)) in
  let x := if x <? 0 then 0 else x in
  if negb inexact && (rem =? 0) then Count x else
  let at_x := wrap64 ((a * x + b) * x + c) in
  let at_x1 := wrap64 ((a * (x + 1) + b) * (x + 1) + c) in
  if xorb (at_x <? 0) (at_x1 <? 0) || xorb (at_x =? 0) (at_x1 =? 0) then Count (x + 1) else NoCount.

(** ScalarEvolution.cpp:606-693 ComputeBackedgeTakenCountForChrec.  (Converting a
    negative double to size_t is undefined; the model wraps.  The result is not
    used in these cases.) *)
Definition is_equals_comparison (c : cmp) : bool :=
  match c with Sle | Ule | Sge | Uge => true | _ => false end.
Definition ComputeBackedgeTakenCount (start : Z) (step : list Z) (bound : Z) (c : cmp) : prediction :=
  match step with
  | [b] =>
      if b =? 0 then Crash else
      let diff := wrap64 (bound - start) in
      let result := wrapu (ceil_div_double diff b) in
      Count (if is_equals_comparison c && (Z.rem diff b =? 0) then wrapu (result + 1) else result)
  | [first; second] =>
      match SolveQuadraticEquation second (wrap64 (2 * first - second)) (wrap64 (2 * (start - bound))) with
      | Count result =>
          let at_result := wrap64 (start + result * first + wrapu (result * (result - 1)) / 2 * second) in
          Count (if is_equals_comparison c && (at_result =? bound) then wrapu (result + 1) else result)
      | other => other
      end
  | _ => NoCount
  end.

(** ScalarEvolution.cpp:486-603: the prediction for a recurrence with constant
    operands that is compared with a constant.  [plus_one] is the common tail of
    the ordered comparisons: the trip count is the number of backedges taken plus
    one. *)
Definition plus_one (p : prediction) : prediction :=
  match p with Count n => Count (wrapu (n + 1)) | other => other end.
Definition predict (c : cmp) (start : Z) (step : list Z) (bound : Z) : prediction :=
  let taken := ComputeBackedgeTakenCount start step bound c in
  match c with
  | Slt | Ult =>
      if bound <=? start then Count 1
      else if step_positive step then plus_one taken else NoCount
  | Sle | Ule =>
      if bound <? start then Count 1
      else if step_positive step then plus_one taken else NoCount
  | Sgt | Ugt =>
      if start <=? bound then Count 1
      else if step_negative step then plus_one taken else NoCount
  | Sge | Uge =>
      if start <? bound then Count 1
      else if step_negative step then plus_one taken else NoCount
  | Ne =>
      let other := if start =? bound then Count 1 else NoCount in
      match step with
      | [b] =>
          let divides := Z.rem (wrap64 (bound - start)) b =? 0 in
          if (0 <? b) && ((start <=? bound) && divides) then plus_one taken
          else if (b <? 0) && ((bound <=? start) && divides) then plus_one taken
          else other
      | _ => other
      end
  | Eq =>
      if start =? bound then (if negb (step_zero step) then Count 2 else NoCount) else Count 1
  end.

(** The constants of a list of operands (lines 470-479). *)
Fixpoint constants (ops : list scev) : option (list Z) :=
  match ops with
  | [] => Some []
  | Const c :: ops => match constants ops with Some cs => Some (c :: cs) | None => None end
  | _ => None
  end.
(** ScalarEvolution.cpp:400-604 GetPredictedTripCount, from the recurrences of the
    two operands of the comparison.  [repeat_if] is the result of the comparison
    for which the match node selects another iteration; as in the code it has no
    influence on the prediction. *)
Definition GetPredictedTripCount (repeat_if : bool) (c : cmp) (lhs rhs : list scev) : prediction :=
  let go bound chrec :=
    match chrec with
    | [_; _] | [_; _; _] =>
        match constants chrec with
        | Some (start :: step) => predict c start step bound
        | _ => NoCount
        end
    | _ => NoCount
    end in
  match lhs, rhs with
  | [Const bound], chrec => go bound chrec
  | [_], _ => NoCount
  | chrec, [Const bound] => go bound chrec
  | _, _ => NoCount
  end.
