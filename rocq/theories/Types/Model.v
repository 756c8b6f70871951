(** Model of the types of jlm/llvm/ir/types.{hpp,cpp}, rvsdg/FunctionType.cpp and rvsdg/bitstring/type.cpp: equality, hash, sizes, alignments and field offsets.
    [None] is undefined behaviour or JLM_UNREACHABLE. Arithmetic on size_t wraps modulo 2^64. *)
From Coq Require Import ZArith String.
From stdpp Require Import base list.
From Verif.MathUtil Require Import Model.
Local Open Scope Z_scope.

(** types.hpp:110-117 *)
Inductive fpsize := half | flt | dbl | x86fp80 | fp128.
(** types.hpp: the classes of types; [TVector true]: ScalableVectorType, [TVector false]: FixedVectorType *)
Inductive ty :=
  | TBits (n : Z) | TPtr | TArray (n : Z) (t : ty) | TFloat (s : fpsize) | TVarArg
  | TStruct (name : string) (packed literal : bool) (fields : list ty) | TVector (scalable : bool) (n : Z) (t : ty) | TIO | TMem | TFunction (args res : list ty).
Definition fpsize_eqb (a b : fpsize) : bool := match a, b with half, half | flt, flt | dbl, dbl | x86fp80, x86fp80 | fp128, fp128 => true | _, _ => false end.
(** operator==: bitstring/type.cpp:23-28, types.cpp:26-30 (pointer), 57-62 (array), 93-98 (float), 147-151 (vararg), 188-203 (struct), 258-263, 274-277, 298-301 (vectors),
    320-324 (io state), 362-366 (memory state), FunctionType.cpp:56-83 *)
Fixpoint type_eqb (s t : ty) {struct s} : bool :=
  match s, t with
  | TBits n, TBits m => n =? m
  | TPtr, TPtr | TVarArg, TVarArg | TIO, TIO | TMem, TMem => true
  | TArray n s, TArray m t => type_eqb s t && (n =? m)
  | TFloat a, TFloat b => fpsize_eqb a b
  | TStruct name packed literal l, TStruct name' packed' literal' l' =>
      Bool.eqb packed packed' && Bool.eqb literal literal' && String.eqb name name' && Nat.eqb (length l) (length l') &&
      (fix go l l' := match l, l' with x :: l, y :: l' => type_eqb x y && go l l' | _, _ => true end) l l'
  | TVector _ n s, TVector _ m t => (n =? m) && type_eqb s t
  | TFunction a r, TFunction a' r' =>
      Nat.eqb (length a) (length a') && Nat.eqb (length r) (length r') &&
      (fix go l l' := match l, l' with x :: l, y :: l' => type_eqb x y && go l l' | _, _ => true end) a a' &&
      (fix go l l' := match l, l' with x :: l, y :: l' => type_eqb x y && go l l' | _, _ => true end) r r'
  | _, _ => false
  end.

(** Hash.hpp:42-51 combineHashesWithSeed, one hash; 63-70 CombineHashes *)
Definition wrap (z : Z) : Z := z mod 2 ^ 64.
Definition combine_seed (seed hash : Z) : Z := Z.lxor seed (wrap (wrap (wrap (hash + 0x9e3779b9) + wrap (Z.shiftl seed 6)) + Z.shiftr seed 2)).
Definition combine_hashes (hashes : list Z) : Z := foldl combine_seed 0 hashes.
(** the C++ classes, for typeid(...).hash_code() *)
Inductive class := CBits | CPtr | CArray | CFloat | CVarArg | CStruct | CFixedVector | CScalableVector | CIO | CMem | CFunction.
Section Hash.
  (** typeid(...).hash_code() and the hashes of the standard library *)
  Context (tid : class -> Z) (hash_size : Z -> Z) (hash_bool : bool -> Z) (hash_string : string -> Z) (hash_fp : fpsize -> Z).
  (** ComputeHash: bitstring/type.cpp:30-36, types.cpp:32-36, 64-70, 100-106, 153-157, 205-220, 279-285, 303-309, 326-330, 368-372, FunctionType.cpp:88-106 *)
  Fixpoint type_hash (t : ty) : Z :=
    match t with
    | TBits n => combine_hashes [tid CBits; hash_size n]
    | TPtr => tid CPtr
    | TArray n t => combine_hashes [tid CArray; type_hash t; hash_size n]
    | TFloat s => combine_hashes [tid CFloat; hash_fp s]
    | TVarArg => tid CVarArg
    | TStruct name packed literal l => foldl (fun h x => combine_hashes [h; x]) (combine_hashes [tid CStruct; hash_bool literal; hash_bool packed; hash_string name]) (map type_hash l)
    | TVector scalable n t => combine_hashes [tid (if scalable then CScalableVector else CFixedVector); hash_size n; type_hash t]
    | TIO => tid CIO
    | TMem => tid CMem
    | TFunction a r => foldl combine_seed (combine_seed (foldl combine_seed (combine_seed (tid CFunction) (wrap (Z.of_nat (length a)))) (map type_hash a)) (wrap (Z.of_nat (length r)))) (map type_hash r)
    end.
End Hash.

Definition add64 (a b : Z) : Z := wrap (a + b).
Definition mul64 (a b : Z) : Z := wrap (a * b).
(** std::lcm on size_t: undefined when the result cannot be represented *)
Definition lcm64 (a b : Z) : option Z := if Z.lcm a b <? 2 ^ 64 then Some (Z.lcm a b) else None.
Definition round_multiple (a m : Z) : option Z := RoundUpToMultipleOf uint64 a m.
Definition fp_size (s : fpsize) : Z := match s with half => 2 | flt => 4 | dbl => 8 | fp128 => 16 | x86fp80 => 10 end.
(** types.cpp:460-471 GetTypeAllocSize, from GetTypeStoreSize and GetTypeAlignment of the type *)
Definition alloc_of (t : ty) (store align : option Z) : option Z :=
  match t with TStruct _ _ _ _ | TArray _ _ => store | _ => s ← store; a ← align; round_multiple s a end.
(** types.cpp:421-441: the loop over the fields; [fields] gives GetTypeAllocSize and GetTypeAlignment of each *)
Fixpoint struct_loop (packed : bool) (fields : list (option Z * option Z)) (total alignment : Z) : option (Z * Z) :=
  match fields with
  | [] => Some (total, alignment)
  | (alloc, align) :: fields =>
      size ← alloc; a ← (if packed then Some 1 else align); total ← round_multiple total a;
      alignment ← lcm64 alignment a; struct_loop packed fields (add64 total size) alignment
  end.
(** types.cpp:494-503 *)
Fixpoint lcm_loop (aligns : list (option Z)) (alignment : Z) : option Z :=
  match aligns with [] => Some alignment | a :: aligns => a ← a; alignment ← lcm64 alignment a; lcm_loop aligns alignment end.
(** types.cpp:380-458 GetTypeStoreSize and 473-514 GetTypeAlignment, which call each other, as a pair; [GetTypeStoreSize_eq], [GetTypeAlignment_eq] and
    [GetTypeAllocSize_eq] in Proofs.v give the three functions separately *)
Fixpoint layout (t : ty) : option Z * option Z :=
  let sub (t : ty) := let '(s, a) := layout t in (alloc_of t s a, a) in
  match t with
  | TBits n => let s := wrap (n + 7) / 8 in (Some s, RoundUpToPowerOf2 uint64 s)
  | TPtr => (Some 8, RoundUpToPowerOf2 uint64 8)
  | TArray n t => let '(alloc, a) := sub t in (alloc ← alloc; Some (mul64 n alloc), a)
  | TFloat f => (Some (fp_size f), RoundUpToPowerOf2 uint64 (fp_size f))
  | TStruct _ packed _ l =>
      let fields := map sub l in
      ('(total, alignment) ← struct_loop packed fields 0 1; round_multiple total alignment,
       if packed then Some 1 else lcm_loop (map snd fields) 1)
  | TVector _ n t => let s := (alloc ← fst (sub t); Some (mul64 n alloc)) in (s, s ← s; RoundUpToPowerOf2 uint64 s)
  | TFunction _ _ => (Some 0, Some 1)
  | TVarArg | TIO | TMem => (None, None)
  end.
Definition GetTypeStoreSize (t : ty) : option Z := fst (layout t).
Definition GetTypeAlignment (t : ty) : option Z := snd (layout t).
Definition GetTypeAllocSize (t : ty) : option Z := alloc_of t (GetTypeStoreSize t) (GetTypeAlignment t).
(** types.cpp:234-256 StructType::GetFieldOffset *)
Fixpoint offset_loop (packed : bool) (fields : list ty) (index : nat) (offset : Z) : option Z :=
  match fields with
  | [] => None
  | t :: fields =>
      a ← (if packed then Some 1 else GetTypeAlignment t); offset ← round_multiple offset a;
      match index with
      | O => Some offset
      | S index => size ← GetTypeAllocSize t; offset_loop packed fields index (add64 offset size)
      end
  end.
Definition GetFieldOffset (packed : bool) (fields : list ty) (index : nat) : option Z := offset_loop packed fields index 0.
