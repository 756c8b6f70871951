(** Property theorems for jlm/util/HashSet.hpp (C03, C04). *)
From stdpp Require Import list.
From Verif.HashSet Require Import Model Spec Proofs.

(** C03: after any program over any number of HashSet objects (aliasing
    included), for every hash iteration order, every object holds exactly the
    mathematical set, iteration has no duplicates, and the next call returns the
    right answer.  Partial: for UnionWithAndClear the returned flag is only
    specified when the receiver is at least as large as the argument. *)
Theorem hashset_set_algebra_partial :
  ∀ (K : Type) (EqDecision0 : EqDecision K) (hash_order : list K → list K),
  (∀ l, hash_order l ≡ₚ l) →
  ∀ ops : list (op K),
    (∀ i, NoDup (run hash_order ops i) ∧
          ∀ x, x ∈ run hash_order ops i ↔ spec_run ops i x) ∧
    ∀ o, spec_result (spec_run ops) o (step hash_order (run hash_order ops) o).2.
Proof. exact @run_spec. Qed.
Print Assumptions hashset_set_algebra_partial.

(** C03, what fails: UnionWithAndClear is documented to return true iff elements
    were added to the receiver.  {}.UnionWithAndClear({1}) makes the receiver
    {1} and returns false. *)
Theorem hashset_union_and_clear_flag_refuted :
  ∃ (ops : list (op nat)) (i j : nat),
    i ≠ j ∧ (∃ x, spec_run ops j x ∧ ¬ spec_run ops i x) ∧
    (step (λ l, l) (run (λ l, l) ops) (OUnionWithAndClear i j)).2 = RBool false ∧
    (step (λ l, l) (run (λ l, l) ops) (OUnionWithAndClear i j)).1 i = [1].
Proof.
  exists [OInsert 1 1], 0, 1. split; [done|]. split.
  { exists 1. vm_compute. naive_solver. }
  split; vm_compute; reflexivity.
Qed.
Print Assumptions hashset_union_and_clear_flag_refuted.

(** C04 is false of the code: {1} is not a subset of {2}, IsSubsetOf says true. *)
Theorem hashset_is_subset_of_refuted :
  ∃ (ops : list (op nat)) (i j : nat),
    IsSubsetOf (run (λ l, l) ops) i j = true ∧
    ¬ (∀ x, spec_run ops i x → spec_run ops j x).
Proof.
  exists [OInsert 0 1; OInsert 1 2], 0, 1. split; [vm_compute; reflexivity|].
  intros Hs. specialize (Hs 1). vm_compute in Hs. naive_solver.
Qed.
Print Assumptions hashset_is_subset_of_refuted.

(** C04, what the code computes instead: a comparison of the sizes. *)
Theorem hashset_is_subset_of_actual :
  ∀ (K : Type) (EqDecision0 : EqDecision K) (hash_order : list K → list K) (ops : list (op K)) i j,
    IsSubsetOf (run hash_order ops) i j = true ↔
    Size (run hash_order ops i) ≤ Size (run hash_order ops j).
Proof. exact @subset_actual. Qed.
Print Assumptions hashset_is_subset_of_actual.

(** C04, the half that holds: a subset is never rejected. *)
Theorem hashset_is_subset_of_partial :
  ∀ (K : Type) (EqDecision0 : EqDecision K) (hash_order : list K → list K),
  (∀ l, hash_order l ≡ₚ l) →
  ∀ (ops : list (op K)) i j,
    (∀ x, spec_run ops i x → spec_run ops j x) → IsSubsetOf (run hash_order ops) i j = true.
Proof. exact @subset_partial. Qed.
Print Assumptions hashset_is_subset_of_partial.

(** Non-vacuity: a hash order that is not the identity. *)
Example reverse_order : ∀ l : list nat, reverse l ≡ₚ l.
Proof. intros l. apply reverse_Permutation. Qed.
Example demo_run :
  let ops := [OInsert 0 1; OInsert 0 2; OInsert 0 3; OInsert 1 2; OInsert 1 5; OIntersectWith 0 1] in
  run (@reverse nat) ops 0 = [2] ∧
  (step (@reverse nat) (run (@reverse nat) ops) (OUnionWith 0 1)).2 = RBool true ∧
  (step (@reverse nat) (run (@reverse nat) ops) (OEquals 0 1)).2 = RBool false.
Proof. vm_compute. repeat split; reflexivity. Qed.
