(** Sizes, alignments and offsets in plain integer arithmetic, without bounds. *)
From Coq Require Import ZArith.
From stdpp Require Import base list.
From Verif.MathUtil Require Import Spec.
From Verif.Types Require Import Model.
Local Open Scope Z_scope.

(** the least multiple of m that is at least v; the least power of two that is at least v *)
Definition ceil_to (v m : Z) : Z := (v + m - 1) / m * m.
Definition pow2_ceil (v : Z) : Z := if v <=? 1 then 1 else 2 ^ Z.log2_up v.
(** from the allocation size and the alignment of each field: where the last field ends *)
Definition fields_end (packed : bool) (fields : list (Z * Z)) : Z := foldl (fun e '(size, align) => ceil_to e (if packed then 1 else align) + size) 0 fields.
Definition max_align (packed : bool) (aligns : list Z) : Z := if packed then 1 else foldr Z.max 1 aligns.
(** the number of bytes of a floating point value *)
Definition float_bytes (f : fpsize) : Z := match f with half => 2 | flt => 4 | dbl => 8 | x86fp80 => 10 | fp128 => 16 end.
(** the store size and the alignment of a type; the allocation size *)
Fixpoint plain (t : ty) : Z * Z :=
  let sub (t : ty) := let '(s, a) := plain t in (ceil_to s a, a) in
  match t with
  | TBits n => let s := (n + 7) / 8 in (s, pow2_ceil s)
  | TPtr => (8, 8)
  | TArray n t => let '(size, a) := sub t in (n * size, a)
  | TFloat f => (float_bytes f, pow2_ceil (float_bytes f))
  | TStruct _ packed _ l => let fields := map sub l in let a := max_align packed (map snd fields) in (ceil_to (fields_end packed fields) a, a)
  | TVector _ n t => let s := n * fst (sub t) in (s, pow2_ceil s)
  | TFunction _ _ => (0, 1)
  | TVarArg | TIO | TMem => (0, 1)
  end.
Definition plain_store (t : ty) : Z := fst (plain t).
Definition plain_align (t : ty) : Z := snd (plain t).
Definition plain_alloc (t : ty) : Z := ceil_to (plain_store t) (plain_align t).
(** a type that has a size, of at most 2^60 bytes, as all types in it *)
Inductive fits : ty -> Prop :=
  | fits_bits n : 0 <= n -> plain_store (TBits n) <= 2 ^ 60 -> fits (TBits n)
  | fits_ptr : fits TPtr
  | fits_array n t : 0 <= n -> fits t -> plain_store (TArray n t) <= 2 ^ 60 -> fits (TArray n t)
  | fits_float f : fits (TFloat f)
  | fits_struct name packed literal l : Forall fits l -> plain_store (TStruct name packed literal l) <= 2 ^ 60 -> fits (TStruct name packed literal l)
  | fits_vector s n t : 0 <= n -> fits t -> plain_store (TVector s n t) <= 2 ^ 60 -> fits (TVector s n t)
  | fits_function a r : fits (TFunction a r).
Definition power_of_two (a : Z) : Prop := exists k, 0 <= k /\ a = 2 ^ k.
(** the type with every vector a fixed vector *)
Fixpoint fixed (t : ty) : ty :=
  match t with
  | TArray n t => TArray n (fixed t) | TStruct name p l f => TStruct name p l (map fixed f) | TVector _ n t => TVector false n (fixed t)
  | TFunction a r => TFunction (map fixed a) (map fixed r) | t => t
  end.
(** no scalable vector anywhere *)
Inductive no_scalable : ty -> Prop :=
  | ns_bits n : no_scalable (TBits n) | ns_ptr : no_scalable TPtr | ns_array n t : no_scalable t -> no_scalable (TArray n t) | ns_float f : no_scalable (TFloat f)
  | ns_vararg : no_scalable TVarArg | ns_struct name p l f : Forall no_scalable f -> no_scalable (TStruct name p l f) | ns_vector n t : no_scalable t -> no_scalable (TVector false n t)
  | ns_io : no_scalable TIO | ns_mem : no_scalable TMem | ns_function a r : Forall no_scalable a -> Forall no_scalable r -> no_scalable (TFunction a r).
