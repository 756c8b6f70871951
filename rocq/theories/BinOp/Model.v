(** Model of jlm/rvsdg/reduction-helpers.hpp, binary.cpp, bitstring/slice.cpp and bitstring/concat.cpp.
    Simplification: the output of a node is the expression it computes; creating a node does not change other nodes. An expression shared between
    two users is written twice: pointer equality of outputs implies equality of expressions. Failed assertions and out-of-range accesses are [None]. *)
From Coq Require Import ZArith.
From stdpp Require Import base list list_numbers.
From Verif.Bits Require Import Model.

Section Helpers.
  Context {A : Type} (red : A -> A -> option A).
  (** reduction-helpers.hpp:48-80 pairwise_reduce: [acc] are the elements before left, [left] is *left, [rest] the elements from right on *)
  Fixpoint pairwise_loop (acc : list A) (left : A) (rest : list A) : list A :=
    match rest with
    | [] => acc ++ [left]
    | r :: rest => match red left r with Some c => pairwise_loop acc c rest | None => pairwise_loop (acc ++ [left]) r rest end
    end.
  Definition pairwise_reduce (args : list A) : list A := match args with [] => [] | a :: rest => pairwise_loop [] a rest end.
  (** 107-139 commutative_pairwise_reduce: left and right are indices; one step of fuel for each test of a loop condition *)
  Fixpoint commutative_loop (fuel : nat) (l r : nat) (args : list A) : option (list A) :=
    match fuel with
    | 0 => None
    | S fuel =>
        match args !! l with
        | None => Some args
        | Some a => match args !! r with
            | None => commutative_loop fuel (S l) (S (S l)) args
            | Some b => match red a b with
                | Some c => match last args with
                    | Some z => commutative_loop fuel 0 1 (take (length args - 1) (<[r := z]> (<[l := c]> args)))
                    | None => None
                    end
                | None => commutative_loop fuel l (S r) args
                end
            end
        end
    end.
  Definition commutative_pairwise_reduce (fuel : nat) (args : list A) : option (list A) := commutative_loop fuel 0 1 args.
End Helpers.

(** an output: a value from elsewhere, a binary node, a node of a FlattenedBinaryOperation *)
Inductive term := Leaf (x : nat) | Bin (op : nat) (a b : term) | Flat (op : nat) (l : list term).
Fixpoint term_eqb (s t : term) : bool :=
  match s, t with
  | Leaf x, Leaf y => bool_decide (x = y)
  | Bin op a b, Bin op' a' b' => bool_decide (op = op') && term_eqb a a' && term_eqb b b'
  | Flat op l, Flat op' l' => bool_decide (op = op') && (fix go l l' := match l, l' with [], [] => true | x :: l, y :: l' => term_eqb x y && go l l' | _, _ => false end) l l'
  | _, _ => false
  end.
Fixpoint terms_eqb (l l' : list term) : bool := match l, l' with [], [] => true | x :: l, y :: l' => term_eqb x y && terms_eqb l l' | _, _ => false end.

(** reduction-helpers.hpp:150-173 associative_flatten: [acc] are the elements before n; [sub] gives the operands of the node of an element that is flattened *)
Fixpoint flatten_loop {A} (sub : A -> option (list A)) (fuel : nat) (acc todo : list A) : option (list A) :=
  match fuel with
  | 0 => None
  | S fuel => match todo with
      | [] => Some acc
      | t :: todo => match sub t with
          | Some [] => None
          | Some (a :: l) => flatten_loop sub fuel acc (a :: l ++ todo)
          | None => flatten_loop sub fuel (acc ++ [t]) todo
          end
      end
  end.
(** binary.cpp:76-95 *)
Definition sub_operands (op : nat) (t : term) : option (list term) :=
  match t with
  | Bin op' a b => if decide (op' = op) then Some [a; b] else None
  | Flat op' l => if decide (op' = op) then Some l else None
  | Leaf _ => None
  end.
(** what a normalization returns: nothing, or the output that replaces the node; [None]: a failed assertion *)
Definition norm (T : Type) := option (option T).
(** binary.cpp:63-107 FlattenAssociativeBinaryOperation *)
Definition flatten_associative (associative : nat -> bool) (fuel : nat) (op : nat) (operands : list term) : norm term :=
  if negb (associative op) then Some None
  else new ← flatten_loop (sub_operands op) fuel [] operands;
    if terms_eqb operands new then (if decide (length new = 2) then Some None else None)
    else if decide (2 < length new) then Some (Some (Flat op new)) else None.

Section Normalize.
  Context (commutative : nat -> bool) (pair : nat -> term -> term -> option term).
  (** binary.cpp:25-51 reduce_operands; [pair]: can_reduce_operand_pair and reduce_operand_pair *)
  Definition reduce_operands (fuel : nat) (op : nat) (args : list term) : option (list term) :=
    if commutative op then commutative_pairwise_reduce (pair op) fuel args else Some (pairwise_reduce (pair op) args).
  (** binary.cpp:109-133 NormalizeBinaryOperation; 251-257 NormalizeFlattenedBinaryOperation calls it with the operands of the flattened node *)
  Definition normalize_binary (fuel : nat) (op : nat) (operands : list term) : norm term :=
    new ← reduce_operands fuel op operands;
    match new with
    | [x] => Some (Some x)
    | _ => if terms_eqb new operands then Some None
           else match new with [a; b] => Some (Some (Bin op a b)) | _ => None end
    end.
End Normalize.

(** binary.cpp:161-183 reduce_parallel, 185-207 reduce_linear: the work list *)
Fixpoint reduce_list (parallel : bool) (op : nat) (fuel : nat) (l : list term) : option term :=
  match fuel with
  | 0 => None
  | S fuel => match l with
      | [] => None
      | [x] => Some x
      | a :: b :: l => reduce_list parallel op fuel (if parallel then l ++ [Bin op a b] else Bin op a b :: l)
      end
  end.
(** binary.cpp:209-224 FlattenedBinaryOperation::reduce of one node *)
Definition reduce_flattened (parallel : bool) (op : nat) (operands : list term) : option term :=
  if decide (1 < length operands) then reduce_list parallel op (length operands) operands else None.
(** binary.cpp:226-249 FlattenedBinaryOperation::reduce of a region: every flattened node, operands first *)
Fixpoint reduce_term (parallel : bool) (t : term) : option term :=
  match t with
  | Leaf x => Some (Leaf x)
  | Bin op a b => a' ← reduce_term parallel a; b' ← reduce_term parallel b; Some (Bin op a' b')
  | Flat op l => l' ← mapM (reduce_term parallel) l; reduce_flattened parallel op l'
  end.

(** bit strings: [BVar x w] an output of type bits[w]; a constant, a slice, a concatenation *)
Inductive bterm := BVar (x w : nat) | BConst (v : bits) | BSlice (low high : nat) (t : bterm) | BConcat (l : list bterm).
(** the number of bits in the type of an output; concat.cpp:26-36 aggregate_arguments; slice.hpp:26 *)
Fixpoint width (t : bterm) : nat :=
  match t with
  | BVar _ w => w
  | BConst v => nbits v
  | BSlice low high _ => high - low
  | BConcat l => sum_list_with width l
  end.
(** slice.cpp:30-45 normalizeIdempotent *)
Definition slice_idempotent (low high : nat) (t : bterm) : option bterm := if decide (low = 0 /\ high = width t) then Some t else None.
(** slice.cpp:47-64 foldConstant; [None] outside: slice throws *)
Definition slice_constant (low high : nat) (t : bterm) : norm bterm :=
  match t with BConst v => r ← slice v low high; Some (Some (BConst r)) | _ => Some None end.
(** slice.cpp:66-84 narrowSlice *)
Definition slice_narrow (low high : nat) (t : bterm) : option bterm :=
  match t with BSlice low' _ t' => Some (BSlice (low + low') (high + low') t') | _ => None end.
(** slice.cpp:86-121 distributeSlice *)
Fixpoint distribute_loop (low high pos : nat) (l : list bterm) : list bterm :=
  match l with
  | [] => []
  | t :: l =>
      let base := pos in let pos := pos + width t in
      (if decide (base < high /\ low < pos)
       then [BSlice (if decide (base < low) then low - base else 0) (if decide (high < pos) then high - base else pos - base) t] else []) ++ distribute_loop low high pos l
  end.
Definition slice_distribute (low high : nat) (t : bterm) : option bterm :=
  match t with BConcat l => Some (BConcat (distribute_loop low high 0 l)) | _ => None end.
(** concat.cpp:55-121 can_reduce_operand_pair and reduce_operand_pair; [same]: equality of outputs *)
Definition concat_pair (same : bterm -> bterm -> bool) (a b : bterm) : option bterm :=
  match a, b with
  | BConst v, BConst w => Some (BConst (concat_bits v w))
  | BSlice low high t, BSlice low' high' t' => if same t t' && bool_decide (high = low') then Some (BSlice low high' t) else None
  | _, _ => None
  end.
(** concat.cpp:151-176 FlattenBitConcatOperation: the operands *)
Definition concat_operands (t : bterm) : option (list bterm) := match t with BConcat l => Some l | _ => None end.
(** equality of outputs *)
Fixpoint bits_eqb (v w : bits) : bool := match v, w with [], [] => true | x :: v, y :: w => bit_eqb x y && bits_eqb v w | _, _ => false end.
Fixpoint bterm_eqb (s t : bterm) : bool :=
  match s, t with
  | BVar x w, BVar y u => bool_decide (x = y) && bool_decide (w = u)
  | BConst v, BConst w => bits_eqb v w
  | BSlice lo hi s, BSlice lo' hi' t => bool_decide (lo = lo') && bool_decide (hi = hi') && bterm_eqb s t
  | BConcat l, BConcat l' => (fix go l l' := match l, l' with [], [] => true | x :: l, y :: l' => bterm_eqb x y && go l l' | _, _ => false end) l l'
  | _, _ => false
  end.
Fixpoint bterms_eqb (l l' : list bterm) : bool := match l, l' with [], [] => true | x :: l, y :: l' => bterm_eqb x y && bterms_eqb l l' | _, _ => false end.
(** concat.cpp:151-176 FlattenBitConcatOperation; [None]: a failed assertion *)
Definition concat_flatten (fuel : nat) (operands : list bterm) : norm bterm :=
  new ← flatten_loop concat_operands fuel [] operands;
  if bterms_eqb operands new then (if decide (length new = 2) then Some None else None)
  else if decide (2 < length new) then Some (Some (BConcat new)) else None.
(** binary.cpp:109-133 NormalizeBinaryOperation for a BitConcatOperation, which is not commutative. The new node gets a copy of the operation, whose
    number of arguments is that of the old node; simple-node.cpp:19-31 throws when the number of operands differs *)
Definition concat_normalize (same : bterm -> bterm -> bool) (operands : list bterm) : norm bterm :=
  let new := pairwise_reduce (concat_pair same) operands in
  match new with
  | [x] => Some (Some x)
  | _ => if bterms_eqb new operands then Some None
         else if decide (length new = 2 /\ length operands = 2) then Some (Some (BConcat new)) else None
  end.
(** llvm/ir/operators/IntegerOperations.cpp:12-67 foldBinaryOperation: the integer operations; comparisons give one bit; [None]: an exception *)
Inductive intop := IEq | INe | ISge | ISgt | ISle | ISlt | IUge | IUgt | IUle | IUlt | IAdd | ISub | IMul | ISDiv | IUDiv | ISRem | IURem | IAShr | IShl | ILShr | IOr | IAnd | IXor.
Definition one_bit (b : option bit) : option bits := b ← b; Some [b].
Definition fold_binary (op : intop) (a b : bits) : option bits :=
  match op with
  | IEq => one_bit (Model.eq a b) | INe => one_bit (ne a b) | ISge => one_bit (sge a b) | ISgt => one_bit (sgt a b) | ISle => one_bit (sle a b)
  | ISlt => one_bit (slt a b) | IUge => one_bit (uge a b) | IUgt => one_bit (ugt a b) | IUle => one_bit (ule a b) | IUlt => one_bit (ult a b)
  | IAdd => add a b | ISub => sub a b | IMul => mul a b | ISDiv => sdiv a b | IUDiv => udiv a b | ISRem => smod a b | IURem => umod a b
  | IAShr => s ← to_uint b; ashr a (Z.to_nat s) | IShl => s ← to_uint b; shl a (Z.to_nat s) | ILShr => s ← to_uint b; shr a (Z.to_nat s)
  | IOr => lor_v a b | IAnd => land_v a b | IXor => lxor_v a b
  end.
(** IntegerOperations.cpp:171-176, 222-226, ... flags of each operation *)
Definition is_associative (op : intop) : bool := match op with IAdd | IMul | IAnd | IOr | IXor => true | _ => false end.
Definition is_commutative (op : intop) : bool := match op with IAdd | IMul | IAnd | IOr | IXor | IEq | INe => true | _ => false end.
