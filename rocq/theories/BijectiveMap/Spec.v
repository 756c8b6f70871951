(** Specification of BijectiveMap: a set of pairs. *)
From stdpp Require Import list.
From Verif.BijectiveMap Require Import Model.

Section spec.
  Context {K V : Type}.
  Definition rel := K → V → Prop.

  (** Neither k nor v is used by a pair. *)
  Definition free (P : rel) (k : K) (v : V) : Prop :=
    (∀ v', ¬ P k v') ∧ (∀ k', ¬ P k' v).

  (** A pair is added only if neither component is in use. *)
  Definition add (P : rel) (k : K) (v : V) : rel :=
    λ k' v', P k' v' ∨ (free P k v ∧ k' = k ∧ v' = v).

  (** A finite relation that is one-to-one. *)
  Definition bijective (P : rel) : Prop :=
    (∀ k v v', P k v → P k v' → v = v') ∧ (∀ k k' v, P k v → P k' v → k = k').

  Definition spec_state (P : rel) (o : op K V) : rel :=
    match o with
    | OInsert k v | OInsertOrThrow k v => add P k v
    | OInsertPairs l => fold_left (λ P kv, add P kv.1 kv.2) l P
    | ORemoveKey k => λ k' v', P k' v' ∧ k' ≠ k
    | ORemoveValue v => λ k' v', P k' v' ∧ v' ≠ v
    | ORemoveWhere p => λ k' v', P k' v' ∧ p k' v' = false
    | OClear => λ _ _, False
    end.

  Definition has_size (P : rel) (n : nat) : Prop :=
    ∃ l, NoDup l ∧ (∀ k v, (k, v) ∈ l ↔ P k v) ∧ length l = n.

  Definition spec_result (P : rel) (o : op K V) (r : result) : Prop :=
    match o with
    | OInsert k v => ∃ b, r = RBool b ∧ (b = true ↔ free P k v)
    | OInsertOrThrow k v => (r = RUnit ∧ free P k v) ∨ (r = RThrow ∧ ¬ free P k v)
    | OInsertPairs l => (* the number of pairs that are new *)
        ∃ n, r = RNat n ∧ has_size (λ k v, spec_state P (OInsertPairs l) k v ∧ ¬ P k v) n
    | ORemoveKey k => ∃ b, r = RBool b ∧ (b = true ↔ ∃ v, P k v)
    | ORemoveValue v => ∃ b, r = RBool b ∧ (b = true ↔ ∃ k, P k v)
    | ORemoveWhere p => ∃ n, r = RNat n ∧ has_size (λ k v, P k v ∧ p k v = true) n
    | OClear => r = RUnit
    end.

  Definition spec_run (ops : list (op K V)) : rel :=
    fold_left spec_state ops (λ _ _, False).
End spec.
