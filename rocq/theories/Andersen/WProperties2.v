(** The worklist solver computes the same solution as the naive one, in every configuration without hybrid cycle detection: theorems. *)
From stdpp Require Import base list list_numbers fin_sets gmap.
From Coq Require Import Lia.
From Verif.Andersen Require Import Model Spec Proofs Proofs2 Proofs4 Proofs5 Properties WModel WProofs WProofs3 WProofs11 WProperties WProofs12.

(** The result is a solution below every solution: nothing is derived that the constraints do not
    force. The PointeesEscaping flag is an internal one: it may be set on an object whose
    pointees have all escaped anyway, where it has no effect. *)
Theorem worklist_least ord pick MAX G c topo fuel cs ref s s' :
  (forall A k (l : list A), ord A k l ≡ₚ l) -> (forall k (S : gset nat), S <> ∅ -> pick k S ∈ S) ->
  npo s < MAX -> wf s -> wf_prog (npo s) (kindof s) G -> (forall k, k ∈ cs -> cstr_in (npo s) k) -> (forall i x, ref i = Some x -> x < npo s) ->
  hcd c = false -> solve_worklist ord pick MAX G c topo fuel cs ref s = Some s' ->
  solution G s cs (observe s') /\
  forall T, solution G s cs T ->
    (forall x y, x < npo s -> Sol (observe s') x y -> Sol T x y) /\
    (forall x, x < npo s -> Ext (observe s') x -> Ext T x) /\
    (forall x, x < npo s -> Esc (observe s') x -> Esc T x) /\
    (forall x, x < npo s -> Pe (observe s') x -> forall y, Sol T x y -> Esc T y).
Proof.
  intros O Pk HM Wf WG HC HR NH E. split; [eapply worklist_sound; eauto|]. intros T HT.
  pose proof (solve_below ord pick MAX G c topo fuel cs ref s s' T O Pk HM Wf WG HC HR NH E HT) as [A B C D].
  split; [exact A|]. split; [exact B|]. split; [exact C|]. intros x Hx K. apply (saturate_pe G s cs T x HT Hx). auto.
Qed.

(** Whatever the worklist order and the optimisations chosen, the worklist solver and the naive
    solver agree (HasIdenticalSolAs, the check the jlm developers run at run time). *)
Theorem worklist_same_as_naive ord pick MAX G c topo fuel cs ref s s' ord' fuel' s1 k1 :
  (forall A k (l : list A), ord A k l ≡ₚ l) -> (forall k (S : gset nat), S <> ∅ -> pick k S ∈ S) -> (forall A k (l : list A), ord' A k l ≡ₚ l) ->
  npo s < MAX -> wf s -> wf_prog (npo s) (kindof s) G -> (forall k, k ∈ cs -> cstr_in (npo s) k) -> (forall i x, ref i = Some x -> x < npo s) ->
  hcd c = false -> solve_worklist ord pick MAX G c topo fuel cs ref s = Some s' -> solve_naively ord' G fuel' cs s = Some (s1, k1) ->
  identical_sol s1 s' = true.
Proof.
  intros O Pk O' HM Wf WG HC HR NH E E1.
  destruct (worklist_least ord pick MAX G c topo fuel cs ref s s' O Pk HM Wf WG HC HR NH E) as [S1 L1].
  destruct (naive_least_solution ord' O' s G cs _ _ _ Wf WG HC E1) as [S2 L2].
  destruct (worklist_frame ord pick MAX G c topo fuel cs ref s s' O Pk HM Wf WG HC HR E) as (W' & N' & _).
  destruct (naive_frame ord' O' s G cs _ _ _ Wf WG HC E1) as (W1 & N1 & _).
  apply has_identical_sol_spec; auto. split; [congruence|]. rewrite N1.
  destruct (L1 _ S2) as (A & B & C & _). destruct (L2 _ S1) as [A' B' C' _].
  intros x Hx. repeat split; auto.
Qed.
(** two configurations agree with one another *)
Theorem worklist_configurations_agree ord pick MAX G c topo fuel ref s cs s1 ord' pick' c' topo' fuel' ref' s2 :
  (forall A k (l : list A), ord A k l ≡ₚ l) -> (forall k (S : gset nat), S <> ∅ -> pick k S ∈ S) ->
  (forall A k (l : list A), ord' A k l ≡ₚ l) -> (forall k (S : gset nat), S <> ∅ -> pick' k S ∈ S) ->
  npo s < MAX -> wf s -> wf_prog (npo s) (kindof s) G -> (forall k, k ∈ cs -> cstr_in (npo s) k) ->
  (forall i x, ref i = Some x -> x < npo s) -> (forall i x, ref' i = Some x -> x < npo s) ->
  hcd c = false -> hcd c' = false ->
  solve_worklist ord pick MAX G c topo fuel cs ref s = Some s1 -> solve_worklist ord' pick' MAX G c' topo' fuel' cs ref' s = Some s2 ->
  identical_sol s1 s2 = true.
Proof.
  intros O Pk O' Pk' HM Wf WG HC HR HR' NH NH' E1 E2.
  destruct (worklist_least ord pick MAX G c topo fuel cs ref s s1 O Pk HM Wf WG HC HR NH E1) as [S1 L1].
  destruct (worklist_least ord' pick' MAX G c' topo' fuel' cs ref' s s2 O' Pk' HM Wf WG HC HR' NH' E2) as [S2 L2].
  destruct (worklist_frame ord pick MAX G c topo fuel cs ref s s1 O Pk HM Wf WG HC HR E1) as (W1 & N1 & _).
  destruct (worklist_frame ord' pick' MAX G c' topo' fuel' cs ref' s s2 O' Pk' HM Wf WG HC HR' E2) as (W2 & N2 & _).
  apply has_identical_sol_spec; auto. split; [congruence|]. rewrite N1.
  destruct (L1 _ S2) as (A & B & C & _). destruct (L2 _ S1) as (A' & B' & C' & _).
  intros x Hx. repeat split; auto.
Qed.
(** The hypotheses are met: Example ex_worklist of WProperties.v runs the solver to its end in all 64 configurations. *)
