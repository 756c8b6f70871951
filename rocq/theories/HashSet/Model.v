(** Model of jlm/util/HashSet.hpp (class HashSet<ItemType>).

    A program works on a store of HashSet objects, so that aliased calls such
    as [a.UnionWith(a)] are covered.  The contents of an object are the list of
    its items in iteration order.  The iteration order of std::unordered_set is
    unspecified: it is the section variable [hash_order], applied whenever an
    item is added; the theorems quantify over every [hash_order] that permutes. *)
From stdpp Require Import list.

Section model.
  Context {K : Type} `{EqDecision K}.
  Variable hash_order : list K → list K.

  Definition store := nat → list K.
  Definition upd (st : store) (i : nat) (l : list K) : store :=
    λ j, if decide (j = i) then l else st j.

  (** HashSet.hpp:149-153 Contains *)
  Definition contains (l : list K) (x : K) : bool := bool_decide (x ∈ l).
  (** HashSet.hpp:186-190 Size, 197-201 IsEmpty *)
  Definition Size (l : list K) : nat := length l.
  Definition IsEmpty (l : list K) : bool := bool_decide (Size l = 0).

  (** std::unordered_set::emplace *)
  Definition emplace (l : list K) (x : K) : list K :=
    if contains l x then l else hash_order (x :: l).

  (** HashSet.hpp:209-215 insert *)
  Definition insert (st : store) (i : nat) (x : K) : store * bool :=
    let size := Size (st i) in
    let st' := upd st i (emplace (st i) x) in
    (st', bool_decide (size ≠ Size (st' i))).

  (** std::unordered_set::erase(key): removes the item if present. *)
  Definition erase (l : list K) (x : K) : list K := filter (λ y, y ≠ x) l.

  (** HashSet.hpp:328-332 Remove: erase(item) returns the number of erased items *)
  Definition Remove (st : store) (i : nat) (x : K) : store * bool :=
    let removed := length (st i) - length (erase (st i) x) in
    (upd st i (erase (st i) x), bool_decide (removed ≠ 0)).

  (** HashSet.hpp:342-362 RemoveWhere: [it] walks over the items; erase(it)
      keeps the order of the others.  The predicate may read the store (it is a
      lambda capturing another set by reference). *)
  Fixpoint remove_where_loop (i : nat) (match_ : store → K → bool)
      (rest : list K) (st : store) (numRemoved : nat) : store * nat :=
    match rest with
    | [] => (st, numRemoved)
    | x :: rest =>
        if match_ st x
        then remove_where_loop i match_ rest (upd st i (erase (st i) x)) (S numRemoved)
        else remove_where_loop i match_ rest st numRemoved
    end.
  Definition RemoveWhere (st : store) (i : nat) (match_ : store → K → bool) : store * nat :=
    remove_where_loop i match_ (st i) st 0.

  (** HashSet.hpp:235-242 UnionWith *)
  Definition UnionWith (st : store) (i j : nat) : store * bool :=
    let sizeBefore := Size (st i) in
    let st' := fold_left (λ st item, (insert st i item).1) (st j) st in
    (st', bool_decide (sizeBefore ≠ Size (st' i))).

  (** std::swap( *this, other) *)
  Definition swap (st : store) (i j : nat) : store := upd (upd st i (st j)) j (st i).

  (** HashSet.hpp:137-141 Clear *)
  Definition Clear (st : store) (i : nat) : store := upd st i [].

  (** HashSet.hpp:251-261 UnionWithAndClear *)
  Definition UnionWithAndClear (st : store) (i j : nat) : store * bool :=
    let st := if decide (Size (st i) < Size (st j)) then swap st i j else st in
    let '(st, result) := UnionWith st i j in
    (Clear st j, result).

  (** HashSet.hpp:268-277 IntersectWith *)
  Definition IntersectWith (st : store) (i j : nat) : store :=
    (RemoveWhere st i (λ st item, negb (contains (st j) item))).1.

  (** HashSet.hpp:285-294 IntersectWithAndClear *)
  Definition IntersectWithAndClear (st : store) (i j : nat) : store :=
    let st := if decide (Size (st j) < Size (st i)) then swap st i j else st in
    Clear (IntersectWith st i j) j.

  (** HashSet.hpp:301-322 DifferenceWith *)
  Definition DifferenceWith (st : store) (i j : nat) : store :=
    if decide (Size (st i) ≤ Size (st j))
    then (RemoveWhere st i (λ st item, contains (st j) item)).1
    else fold_left (λ st item, (Remove st i item).1) (st j) st.

  (** HashSet.hpp:162-179 IsSubsetOf.  The loop ranges over other.Items() and
      tests other.Contains, as in the source. *)
  Definition IsSubsetOf (st : store) (i j : nat) : bool :=
    if decide (Size (st j) < Size (st i)) then false
    else forallb (λ item, contains (st j) item) (st j).

  (** HashSet.hpp:380-391 operator== ; 399-403 operator!= is its negation *)
  Definition equals (st : store) (i j : nat) : bool :=
    if decide (Size (st i) ≠ Size (st j)) then false
    else forallb (λ item, contains (st j) item) (st i).

  (** HashSet.hpp:120-125 copy assignment *)
  Definition assign (st : store) (i j : nat) : store := upd st i (st j).

  (** Client programs. *)
  Inductive op :=
  | OInsert (i : nat) (x : K)
  | ORemove (i : nat) (x : K)
  | OContains (i : nat) (x : K)
  | OSize (i : nat)
  | OIsEmpty (i : nat)
  | OItems (i : nat)
  | OUnionWith (i j : nat)
  | OUnionWithAndClear (i j : nat)
  | OIntersectWith (i j : nat)
  | OIntersectWithAndClear (i j : nat)
  | ODifferenceWith (i j : nat)
  | ORemoveWhere (i : nat) (p : K → bool)
  | OClear (i : nat)
  | OEquals (i j : nat)
  | OAssign (i j : nat).

  Inductive result :=
  | RUnit
  | RBool (b : bool)
  | RSize (n : nat)
  | RItems (l : list K).

  Definition step (st : store) (o : op) : store * result :=
    match o with
    | OInsert i x => let '(st', b) := insert st i x in (st', RBool b)
    | ORemove i x => let '(st', b) := Remove st i x in (st', RBool b)
    | OContains i x => (st, RBool (contains (st i) x))
    | OSize i => (st, RSize (Size (st i)))
    | OIsEmpty i => (st, RBool (IsEmpty (st i)))
    | OItems i => (st, RItems (st i))
    | OUnionWith i j => let '(st', b) := UnionWith st i j in (st', RBool b)
    | OUnionWithAndClear i j => let '(st', b) := UnionWithAndClear st i j in (st', RBool b)
    | OIntersectWith i j => (IntersectWith st i j, RUnit)
    | OIntersectWithAndClear i j => (IntersectWithAndClear st i j, RUnit)
    | ODifferenceWith i j => (DifferenceWith st i j, RUnit)
    | ORemoveWhere i p => let '(st', n) := RemoveWhere st i (λ _, p) in (st', RSize n)
    | OClear i => (Clear st i, RUnit)
    | OEquals i j => (st, RBool (equals st i j))
    | OAssign i j => (assign st i j, RUnit)
    end.

  (** HashSet.hpp:96 default constructor for every object of the store *)
  Definition empty_store : store := λ _, [].

  Definition run (ops : list op) : store :=
    fold_left (λ st o, (step st o).1) ops empty_store.
End model.
Arguments op : clear implicits.
Arguments result : clear implicits.
Arguments store : clear implicits.
