(** Property theorems for jlm/util/Worklist.hpp (C06, C07). *)
From stdpp Require Import gmap list.
From Coq Require Import NArith.
From Verif.Worklist Require Import Model Spec Proofs.

(** C06/C07 for LifoWorklist: nothing lost, nothing invented, most recently
    queued pending item first. *)
Theorem lifo_worklist_correct :
  ∀ (T : Type) (E : EqDecision T) (C : Countable T) ops s (tr : list (event T)),
  run LifoWorklist (init LifoWorklist, []) ops = Some (s, tr) →
  length tr = length ops ∧ answers LifoWorklist lifo_choice s tr.
Proof. exact @lifo_final. Qed.
Print Assumptions lifo_worklist_correct.

Theorem fifo_worklist_correct :
  ∀ (T : Type) (E : EqDecision T) (C : Countable T) ops s (tr : list (event T)),
  run FifoWorklist (init FifoWorklist, []) ops = Some (s, tr) →
  length tr = length ops ∧ answers FifoWorklist fifo_choice s tr.
Proof. exact @fifo_final. Qed.
Print Assumptions fifo_worklist_correct.

(** The fire counter is a 64-bit size_t whose maximum is the in-queue marker:
    the statement covers fewer than 2^64-1 operations. *)
Theorem lrf_worklist_correct :
  ∀ (T : Type) (E : EqDecision T) (C : Countable T) (ltT : T → T → bool) ops s
    (tr : list (event T)),
  run (LrfWorklist ltT) (init (LrfWorklist ltT), []) ops = Some (s, tr) →
  (N.of_nat (length ops) < 2 ^ 64 - 1)%N →
  length tr = length ops ∧ answers (LrfWorklist ltT) lrf_choice s tr.
Proof. exact @lrf_final. Qed.
Print Assumptions lrf_worklist_correct.

Theorem two_phase_lrf_worklist_correct :
  ∀ (T : Type) (E : EqDecision T) (C : Countable T) (ltT : T → T → bool) ops s
    (tr : list (event T)),
  run (TwoPhaseLrfWorklist ltT) (init (TwoPhaseLrfWorklist ltT), []) ops = Some (s, tr) →
  (N.of_nat (length ops) < 2 ^ 64 - 1)%N →
  length tr = length ops ∧ answers (TwoPhaseLrfWorklist ltT) two_phase_choice s tr.
Proof. exact @lrf2_final. Qed.
Print Assumptions two_phase_lrf_worklist_correct.

(** The list used to state the orders contains exactly the pending items. *)
Theorem pending_list_is_pending :
  ∀ (T : Type) (E : EqDecision T) (tr : list (event T)) (x : T),
  x ∈ pending_list tr ↔ pending tr x.
Proof. exact @elem_pending_list. Qed.
Print Assumptions pending_list_is_pending.

(** C06 for Workset: an item is reported iff it was pushed (true) after its last
    removal (false). *)
Theorem workset_correct :
  ∀ (T : Type) (E : EqDecision T) (C : Countable T) (ops : list (bool * T)),
  let s := fold_left (λ s '(b, x), if (b : bool) then workset_push s x else workset_remove s x)
             ops (∅ : gset T) in
  ∀ x, workset_has_item s x = true ↔ ∃ o1 o2, ops = o1 ++ (true, x) :: o2 ∧ (false, x) ∉ o2.
Proof. exact @workset_ok. Qed.
Print Assumptions workset_correct.

(** Non-vacuity: a program that runs on all four policies and distinguishes them. *)
Definition demo : list (op nat) :=
  [OPush 1; OPush 2; OPop; OPush 3; OPush 1; OPush 2; OPop; OPush 3; OPop; OPop].
Definition trace_of (W : worklist nat) : option (list nat) :=
  option_map (λ r, pops r.2) (run W (init W, []) demo).
Example demo_lifo : trace_of LifoWorklist = Some [2; 2; 3; 1].
Proof. vm_compute. reflexivity. Qed.
Example demo_fifo : trace_of FifoWorklist = Some [1; 2; 3; 1].
Proof. vm_compute. reflexivity. Qed.
Example demo_lrf : trace_of (LrfWorklist Nat.ltb) = Some [1; 2; 3; 1].
Proof. vm_compute. reflexivity. Qed.
Example demo_lrf2 : trace_of (TwoPhaseLrfWorklist Nat.ltb) = Some [1; 2; 3; 1].
Proof. vm_compute. reflexivity. Qed.
