(** Mathematical sets as predicates: the specification of HashSet. *)
From stdpp Require Import list.
From Verif.HashSet Require Import Model.

Section spec.
  Context {K : Type}.

  Definition astore := nat → K → Prop.
  Definition aset (A : astore) (i : nat) (P : K → Prop) : astore :=
    λ j, if decide (j = i) then P else A j.

  (** The mathematical set every object denotes after the call. For the
      ...AndClear calls the argument ends up empty (also if it is the receiver). *)
  Definition spec_state (A : astore) (o : op K) : astore :=
    match o with
    | OInsert i x => aset A i (λ y, y = x ∨ A i y)
    | ORemove i x => aset A i (λ y, y ≠ x ∧ A i y)
    | OUnionWith i j => aset A i (λ y, A i y ∨ A j y)
    | OUnionWithAndClear i j => aset (aset A i (λ y, A i y ∨ A j y)) j (λ _, False)
    | OIntersectWith i j => aset A i (λ y, A i y ∧ A j y)
    | OIntersectWithAndClear i j => aset (aset A i (λ y, A i y ∧ A j y)) j (λ _, False)
    | ODifferenceWith i j => aset A i (λ y, A i y ∧ ¬ A j y)
    | ORemoveWhere i p => aset A i (λ y, A i y ∧ p y = false)
    | OClear i => aset A i (λ _, False)
    | OAssign i j => aset A i (A j)
    | OContains _ _ | OSize _ | OIsEmpty _ | OItems _ | OEquals _ _ => A
    end.

  (** [n] is the number of elements of P. *)
  Definition has_size (P : K → Prop) (n : nat) : Prop :=
    ∃ l, NoDup l ∧ (∀ x, x ∈ l ↔ P x) ∧ length l = n.

  (** What the call must return in state [A]. *)
  Definition spec_result (A : astore) (o : op K) (r : result K) : Prop :=
    match o with
    | OInsert i x => ∃ b, r = RBool b ∧ (b = true ↔ ¬ A i x)
    | ORemove i x => ∃ b, r = RBool b ∧ (b = true ↔ A i x)
    | OContains i x => ∃ b, r = RBool b ∧ (b = true ↔ A i x)
    | OSize i => ∃ n, r = RSize n ∧ has_size (A i) n
    | OIsEmpty i => ∃ b, r = RBool b ∧ (b = true ↔ ∀ x, ¬ A i x)
    | OItems i => ∃ l, r = RItems l ∧ NoDup l ∧ ∀ x, x ∈ l ↔ A i x
    | OUnionWith i j => ∃ b, r = RBool b ∧ (b = true ↔ ∃ x, A j x ∧ ¬ A i x)
    (* "true if elements were added to this HashSet": only right when the
       receiver is not smaller than the argument, see Properties.v *)
    | OUnionWithAndClear i j =>
        ∃ b, r = RBool b ∧
          (∀ n m, has_size (A i) n → has_size (A j) m → m ≤ n →
             (b = true ↔ ∃ x, A j x ∧ ¬ A i x))
    | ORemoveWhere i p => ∃ n, r = RSize n ∧ has_size (λ x, A i x ∧ p x = true) n
    | OEquals i j => ∃ b, r = RBool b ∧ (b = true ↔ ∀ x, A i x ↔ A j x)
    | OIntersectWith _ _ | OIntersectWithAndClear _ _ | ODifferenceWith _ _
    | OClear _ | OAssign _ _ => r = RUnit
    end.

  Definition spec_run (ops : list (op K)) : astore :=
    fold_left spec_state ops (λ _ _, False).
End spec.
