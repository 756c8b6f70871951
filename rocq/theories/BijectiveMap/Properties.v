(** Property theorems for jlm/util/BijectiveMap.hpp (C05). *)
From stdpp Require Import gmap list.
From Verif.BijectiveMap Require Import Model Spec Proofs.

(** C05: after any operation sequence, for every iteration order: lookups in both
    directions describe one and the same one-to-one relation, which is the one
    the history prescribes; both maps have the same size; the next call answers
    according to the specification. *)
Theorem bijectivemap_history :
  ∀ (K V : Type) (EK : EqDecision K) (CK : Countable K) (EV : EqDecision V) (CV : Countable V)
    (order : list (K * V) → list (K * V)),
  (∀ l, order l ≡ₚ l) →
  ∀ ops : list (op K V),
  let m := run order ops in
  (∀ k v, LookupKey m k = Some v ↔ spec_run ops k v) ∧
  (∀ k v, LookupValue m v = Some k ↔ spec_run ops k v) ∧
  (∀ k, HasKey m k = true ↔ ∃ v, spec_run ops k v) ∧
  (∀ v, HasValue m v = true ↔ ∃ k, spec_run ops k v) ∧
  bijective (spec_run ops) ∧
  NoDup (Items order m) ∧ (∀ k v, (k, v) ∈ Items order m ↔ spec_run ops k v) ∧
  Size m = length (Items order m) ∧ base.size (fwd m) = base.size (rev m) ∧
  ∀ o, spec_result (spec_run ops) o (step order m o).2.
Proof. exact @run_spec. Qed.
Print Assumptions bijectivemap_history.

(** C05: operator== (which compares forward maps only) is equality of the relations. *)
Theorem bijectivemap_equality :
  ∀ (K V : Type) (EK : EqDecision K) (CK : Countable K) (EV : EqDecision V) (CV : Countable V)
    (order : list (K * V) → list (K * V)),
  (∀ l, order l ≡ₚ l) →
  ∀ ops1 ops2 : list (op K V),
  equals (run order ops1) (run order ops2) = true ↔
  ∀ k v, spec_run ops1 k v ↔ spec_run ops2 k v.
Proof. exact @equals_ok. Qed.
Print Assumptions bijectivemap_equality.

(** C05: the range constructor throws exactly if a key or a value repeats;
    otherwise it holds exactly the given pairs. *)
Theorem bijectivemap_construct :
  ∀ (K V : Type) (EK : EqDecision K) (CK : Countable K) (EV : EqDecision V) (CV : Countable V)
    (l : list (K * V)),
  (∃ m, construct empty_bimap l = Some m ∧
     ∀ k v, LookupKey m k = Some v ↔ (k, v) ∈ l) ∧ NoDup l.*1 ∧ NoDup l.*2 ∨
  construct empty_bimap l = None ∧ ¬ (NoDup l.*1 ∧ NoDup l.*2).
Proof. exact @construct_ok. Qed.
Print Assumptions bijectivemap_construct.

(** Non-vacuity. *)
Example demo :
  let m := run (λ l, l) [OInsert 1 10; OInsert 2 20; OInsert 3 10; ORemoveKey 2; OInsert 3 20;
                         ORemoveWhere (λ k v, Nat.eqb k 1)] in
  (LookupKey m 3, LookupKey m 1, LookupValue m 20, LookupValue m 10, Size m)
  = (Some 20, None, Some 3, None, 1).
Proof. vm_compute. reflexivity. Qed.
Example demo_construct_throws : construct (K := nat) (V := nat) empty_bimap [(1, 2); (2, 2)] = None.
Proof. vm_compute. reflexivity. Qed.
