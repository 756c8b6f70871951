(** Model of jlm/util/BijectiveMap.hpp (class BijectiveMap<K, V>).

    [order] is the unspecified iteration order of the forward std::unordered_map. *)
From stdpp Require Import gmap list.

Section model.
  Context {K V : Type} `{Countable K} `{Countable V}.
  Variable order : list (K * V) → list (K * V).

  (** BijectiveMap.hpp:412-413 ForwardMap_, ReverseMap_ *)
  Record bimap := BiMap { fwd : gmap K V; rev : gmap V K }.

  (** BijectiveMap.hpp:91 default constructor *)
  Definition empty_bimap : bimap := BiMap ∅ ∅.

  (** BijectiveMap.hpp:132-137 Clear *)
  Definition Clear (m : bimap) : bimap := BiMap ∅ ∅.

  (** BijectiveMap.hpp:142-147 Size; the assertion that both maps have the same
      size is proved in Properties.v *)
  Definition Size (m : bimap) : nat := base.size (fwd m).

  (** BijectiveMap.hpp:211-215 HasKey, 222-226 HasValue *)
  Definition HasKey (m : bimap) (k : K) : bool := bool_decide (is_Some (fwd m !! k)).
  Definition HasValue (m : bimap) (v : V) : bool := bool_decide (is_Some (rev m !! v)).

  (** std::unordered_map::insert: no effect if the key exists *)
  Definition map_insert_new {A B} `{Countable A} (k : A) (v : B) (m : gmap A B) : gmap A B :=
    match m !! k with Some _ => m | None => <[k := v]> m end.

  (** BijectiveMap.hpp:156-165 Insert *)
  Definition Insert (m : bimap) (k : K) (v : V) : bimap * bool :=
    if HasKey m k || HasValue m v then (m, false)
    else (BiMap (map_insert_new k v (fwd m)) (map_insert_new v k (rev m)), true).

  (** BijectiveMap.hpp:174-191 InsertPairs *)
  Fixpoint InsertPairs (m : bimap) (l : list (K * V)) (inserted : nat) : bimap * nat :=
    match l with
    | [] => (m, inserted)
    | (k, v) :: l =>
        let '(m', b) := Insert m k v in
        InsertPairs m' l (if (b : bool) then S inserted else inserted)
    end.

  (** BijectiveMap.hpp:199-204 InsertOrThrow; [None] is the exception. *)
  Definition InsertOrThrow (m : bimap) (k : K) (v : V) : option bimap :=
    let '(m', b) := Insert m k v in if (b : bool) then Some m' else None.

  (** BijectiveMap.hpp:105-112 BijectiveMap(first, last); an exception in the
      constructor leaves no object *)
  Fixpoint construct (m : bimap) (l : list (K * V)) : option bimap :=
    match l with
    | [] => Some m
    | (k, v) :: l => m' ← InsertOrThrow m k v; construct m' l
    end.

  (** BijectiveMap.hpp:233-240 LookupKey, 247-254 LookupValue; [None]: Error thrown *)
  Definition LookupKey (m : bimap) (k : K) : option V := fwd m !! k.
  Definition LookupValue (m : bimap) (v : V) : option K := rev m !! v.

  (** BijectiveMap.hpp:285-292 Erase of the iterator at (k, v). *)
  Definition Erase (m : bimap) (k : K) (v : V) : bimap :=
    BiMap (delete k (fwd m)) (delete v (rev m)).

  (** BijectiveMap.hpp:299-308 RemoveKey *)
  Definition RemoveKey (m : bimap) (k : K) : bimap * bool :=
    match fwd m !! k with
    | None => (m, false)
    | Some v => (Erase m k v, true)
    end.

  (** BijectiveMap.hpp:315-327 RemoveValue *)
  Definition RemoveValue (m : bimap) (v : V) : bimap * bool :=
    match rev m !! v with
    | None => (m, false)
    | Some k => (BiMap (delete k (fwd m)) (delete v (rev m)), true)
    end.

  (** BijectiveMap.hpp:335-353 RemoveWhere: walks the forward map; erasing keeps
      the order of the remaining elements. *)
  Fixpoint remove_where_loop (p : K → V → bool) (rest : list (K * V)) (m : bimap) (removed : nat)
    : bimap * nat :=
    match rest with
    | [] => (m, removed)
    | (k, v) :: rest =>
        if p k v then remove_where_loop p rest (Erase m k v) (S removed)
        else remove_where_loop p rest m removed
    end.
  Definition RemoveWhere (m : bimap) (p : K → V → bool) : bimap * nat :=
    remove_where_loop p (order (map_to_list (fwd m))) m 0.

  (** BijectiveMap.hpp:261-275 begin()..end() *)
  Definition Items (m : bimap) : list (K * V) := order (map_to_list (fwd m)).

  (** BijectiveMap.hpp:395-400 operator== compares the forward maps only *)
  Definition equals (m1 m2 : bimap) : bool := bool_decide (fwd m1 = fwd m2).

  (** Client programs on one map. RemoveKeysWhere / RemoveValuesWhere
      (BijectiveMap.hpp:362-389) are RemoveWhere with a predicate on one component. *)
  Inductive op :=
  | OInsert (k : K) (v : V)
  | OInsertPairs (l : list (K * V))
  | OInsertOrThrow (k : K) (v : V)
  | ORemoveKey (k : K)
  | ORemoveValue (v : V)
  | ORemoveWhere (p : K → V → bool)
  | OClear.

  Inductive result := RBool (b : bool) | RNat (n : nat) | RUnit | RThrow.

  (** A thrown exception leaves the object as it was. *)
  Definition step (m : bimap) (o : op) : bimap * result :=
    match o with
    | OInsert k v => let '(m', b) := Insert m k v in (m', RBool b)
    | OInsertPairs l => let '(m', n) := InsertPairs m l 0 in (m', RNat n)
    | OInsertOrThrow k v =>
        match InsertOrThrow m k v with Some m' => (m', RUnit) | None => (m, RThrow) end
    | ORemoveKey k => let '(m', b) := RemoveKey m k in (m', RBool b)
    | ORemoveValue v => let '(m', b) := RemoveValue m v in (m', RBool b)
    | ORemoveWhere p => let '(m', n) := RemoveWhere m p in (m', RNat n)
    | OClear => (Clear m, RUnit)
    end.

  Definition run (ops : list op) : bimap :=
    fold_left (λ m o, (step m o).1) ops empty_bimap.
End model.
Arguments bimap K V {_ _ _ _}.
Arguments op : clear implicits.
