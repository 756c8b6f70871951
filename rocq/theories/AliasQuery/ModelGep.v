(** Constants as indices and the byte offset of a GetElementPtr with constant indices.
    jlm/llvm/ir/Trace.cpp:70-131, jlm/llvm/ir/operators/GetElementPtr.cpp:49-107,158-176 *)
From stdpp Require Import base list option.
From Coq Require Import ZArith.
From Verif.MathUtil Require Import Model.
From Verif.Types Require Import Model.
From Verif.AliasQuery Require Import Model.
Local Open Scope Z_scope.

(** An integer output after traceOutput: a constant of w bits ([known]: no undefined bit) with the unsigned reading v, an extension or truncation of another output, or anything else.
    IntegerConstantOperation and BitConstantOperation are handled in the same way. *)
Inductive iexp := CInt (w v : Z) (known : bool) | CSext (src dst : Z) (e : iexp) | CZext (src dst : Z) (e : iexp) | CTrunc (src dst : Z) (e : iexp) | COpaque (w : Z).
(** BitValueRepresentation::to_int for at most 64 bits (value-representation.cpp:51-90, modelled bit by bit in Verif.Bits): the signed reading *)
Definition to_int (w v : Z) : Z := if decide (2 ^ (w - 1) <= v) then v - 2 ^ w else v.
(** JLM_ASSERT(keepBits <= 64) in truncateAndSignExtend, truncateAndZeroExtend; a shift by 64 is undefined and counts as failure here *)
Definition extend (f : Z -> Z -> option Z) (z bits : Z) : outcome (option Z) :=
  if decide (bits <= 64) then match f z bits with Some r => Done (Some r) | None => Failed end else Failed.
(** Trace.cpp:70-131 tryGetConstantSignedInteger *)
Fixpoint try_constant (e : iexp) : outcome (option Z) :=
  match e with
  | CInt w v known => Done (if known && bool_decide (w <= 64) then Some (to_int w v) else None)
  | CSext src _ e => let! r := try_constant e in match r with None => Done None | Some z => extend truncateAndSignExtend z src end
  | CZext src _ e => let! r := try_constant e in match r with None => Done None | Some z => extend truncateAndZeroExtend z src end
  | CTrunc _ dst e => let! r := try_constant e in match r with None => Done None | Some z => extend truncateAndSignExtend z dst end
  | COpaque _ => Done None
  end.
(** GetElementPtr.cpp:77-101 computeIntraTypeOffset, modulo 2^64; None: std::logic_error is thrown (the function is noexcept, so the program ends), or a struct has no such field *)
Fixpoint intra_offset (t : ty) (indices : list Z) : option Z :=
  match indices with
  | [] => Some 0
  | i :: indices =>
      match t with
      | TArray _ e => a ← GetTypeAllocSize e; r ← intra_offset e indices; Some (add64 (mul64 i a) r)
      | TStruct _ packed _ fields =>
          f ← fields !! Z.to_nat i; o ← GetFieldOffset packed fields (Z.to_nat i); r ← intra_offset f indices; Some (add64 o r)
      | _ => None
      end
  end.
(** GetElementPtr.cpp:72-107 getOffsetInBytes *)
Definition gep_offset (t : ty) (indices : list Z) : option Z :=
  match indices with
  | [] => None (* JLM_ASSERT *)
  | i :: indices => a ← GetTypeAllocSize t; r ← intra_offset t indices; Some (convert int64 (add64 (mul64 i a) r))
  end.
(** GetElementPtr.cpp:49-70 tryGetAsConstant: the indices as uint64_t, if all of them are constants *)
Fixpoint constant_indices (l : list iexp) : outcome (option (list Z)) :=
  match l with
  | [] => Done (Some [])
  | e :: l => let! r := try_constant e in match r with None => Done None | Some z => let! rs := constant_indices l in Done (match rs with None => None | Some zs => Some (wrap z :: zs) end) end
  end.
(** GetElementPtr.cpp:158-176 normalizeIdempotent: is the GEP replaced by its base address? *)
Fixpoint is_idempotent (l : list iexp) : outcome bool :=
  match l with
  | [] => Done true
  | e :: l => let! r := try_constant e in if decide (r = Some 0) then is_idempotent l else Done false
  end.
