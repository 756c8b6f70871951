(** Property theorems for jlm/util/disjointset.hpp (C01, C02). *)
From stdpp Require Import gmap list.
From Verif.DisjointSet Require Import Model Spec Proofs.

(** C01: every legal call sequence terminates, and afterwards two elements have
    the same representative iff the merge calls connect them. *)
Theorem disjointset_find_iff_connected :
  ∀ (K : Type) (EqDecision0 : EqDecision K) (H : Countable K) (ops : list (op K)),
  legal ops →
  ∃ s ans, run empty_ds ops = Some (s, ans) ∧
  ∀ x y, present ops x → present ops y →
  ∃ s1 r1 s2 r2, find s x = Some (s1, r1) ∧ find s1 y = Some (s2, r2) ∧
                 (r1 = r2 ↔ connected ops x y).
Proof. exact @find_iff_connected. Qed.
Print Assumptions disjointset_find_iff_connected.

(** C01/C02: every single answer along every legal history is right: find and
    merge return a current representative of the class, iteration lists each
    member of the class exactly once, nmembers counts them. *)
Theorem disjointset_answers :
  ∀ (K : Type) (EqDecision0 : EqDecision K) (H : Countable K) (ops : list (op K)) (o : op K),
  legal (ops ++ [o]) →
  ∃ s ans s' a, run empty_ds ops = Some (s, ans) ∧
    run empty_ds (ops ++ [o]) = Some (s', ans ++ [a]) ∧
    answer_ok ops o (roots s') a.
Proof. exact @run_answer. Qed.
Print Assumptions disjointset_answers.

(** C02: representatives are exactly one per class, nsets/nvalues count. *)
Theorem disjointset_representatives :
  ∀ (K : Type) (EqDecision0 : EqDecision K) (H : Countable K) (ops : list (op K)),
  legal ops →
  ∃ s ans, run empty_ds ops = Some (s, ans) ∧
    NoDup (representatives s) ∧
    nsets s = length (representatives s) ∧
    (∀ r, r ∈ representatives s → present ops r) ∧
    (∀ x, present ops x → ∃ r, r ∈ representatives s ∧ connected ops x r ∧
          ∀ r', r' ∈ representatives s → connected ops x r' → r' = r) ∧
    (∀ xs, NoDup xs → (∀ x, x ∈ xs ↔ present ops x) → nvalues s = length xs).
Proof. exact @representatives_ok. Qed.
Print Assumptions disjointset_representatives.

(** C01 (cost): the pointer chasing loop of find takes at most
    log2(nvalues) iterations, in every reachable state. *)
Theorem disjointset_find_logarithmic :
  ∀ (K : Type) (EqDecision0 : EqDecision K) (H : Countable K) (ops : list (op K)),
  legal ops →
  ∃ s ans, run empty_ds ops = Some (s, ans) ∧
  ∀ x, present ops x → ∃ rx m r s',
    values s !! x = Some rx ∧
    root_loop (Nat.log2 (nvalues s)) (values s) x x (parent_ rx) = Some (m, r) ∧
    find s x = Some (s', r) ∧ values s' = m.
Proof. exact @find_log. Qed.
Print Assumptions disjointset_find_logarithmic.

(** Non-vacuity: a legal history with a non-trivial class. *)
Definition demo : list (op nat) :=
  [OInsert 1; OInsert 2; OFindOrInsert 3; OInsert 4; OMerge 1 2; OMerge 4 3; OMerge 2 3].
Example demo_legal : legal demo.
Proof.
  intros pre o post Heq x Hx. apply elem_of_list_In in Hx.
  unfold present. rewrite !elem_of_list_In. unfold demo in Heq.
  do 7 (destruct pre as [|? pre]; simpl in Heq; [simplify_eq/=; unfold since_clear; simpl in *; intuition (subst; simpl; auto 20)|injection Heq as <- Heq]).
  destruct pre; discriminate Heq.
Qed.
Example demo_run :
  (run empty_ds (demo ++ [OMembers 1; ONMembers 3; OFind 1; OFind 3])) ≫= (fun p => Some (drop 7 p.2))
  = Some [AList [3; 4; 2; 1]; ANat 4; ASet 1; ASet 1].
Proof. vm_compute. reflexivity. Qed.
