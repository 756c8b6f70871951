(** The worklist solver, in every configuration: theorems. *)
From stdpp Require Import base list list_numbers fin_sets gmap.
From Coq Require Import Lia.
From Verif.Andersen Require Import Model Spec Proofs Proofs2 Proofs4 Proofs5 Properties WModel WProofs WProofs3 WProofs6 WProofs11.

(** RunWorklistSolver, in every configuration (worklist order, online, hybrid and lazy cycle detection,
    difference propagation, prefer implicit pointees, topological traversals; hash set iteration order;
    whatever RefNodeUnificationRoot_ holds): if it stops, its result solves the constraints. *)
Theorem worklist_sound ord pick MAX G c topo fuel cs ref s s' :
  (forall A k (l : list A), ord A k l ≡ₚ l) -> (forall k (S : gset nat), S <> ∅ -> pick k S ∈ S) ->
  npo s < MAX -> wf s -> wf_prog (npo s) (kindof s) G -> (forall k, k ∈ cs -> cstr_in (npo s) k) -> (forall i x, ref i = Some x -> x < npo s) ->
  solve_worklist ord pick MAX G c topo fuel cs ref s = Some s' -> solution G s cs (observe s').
Proof. intros O Pk HM Wf WG HC HR E. eapply solve_sound; eauto. Qed.
(** it creates no pointer object, keeps the invariant, and never separates unified objects *)
Theorem worklist_frame ord pick MAX G c topo fuel cs ref s s' :
  (forall A k (l : list A), ord A k l ≡ₚ l) -> (forall k (S : gset nat), S <> ∅ -> pick k S ∈ S) ->
  npo s < MAX -> wf s -> wf_prog (npo s) (kindof s) G -> (forall k, k ∈ cs -> cstr_in (npo s) k) -> (forall i x, ref i = Some x -> x < npo s) ->
  solve_worklist ord pick MAX G c topo fuel cs ref s = Some s' ->
  wf s' /\ npo s' = npo s /\ kindof s' = kindof s /\
  forall x y, x < npo s -> y < npo s -> root s x = root s y -> root s' x = root s' y.
Proof.
  intros O Pk HM Wf WG HC HR E.
  destruct (solve_final ord O pick Pk MAX G c (npo s) (kindof s) WG topo fuel cs ref s s' HM Wf eq_refl eq_refl HC HR E) as (w & <- & Gd & Wl & Ne & L).
  pose proof (g_shape _ _ _ _ _ _ Gd) as H. split; [apply (sh_wf _ _ _ w H)|]. split; [apply (sh_npo _ _ _ w H)|]. split; [apply (sh_kind _ _ _ w H)|].
  intros x y Hx Hy Exy. apply (le_same _ _ _ L); auto.
Qed.

(** ** the hypotheses are met: the module of Properties.v, in every configuration *)
Definition ex_pick (k : nat) (S : gset nat) : nat := match elements S with x :: _ => x | [] => 0 end.
Lemma ex_pick_in k S : S <> ∅ -> ex_pick k S ∈ S.
Proof.
  intros H. unfold ex_pick. destruct (elements S) as [|x l] eqn:E; [apply elements_empty_inv in E; apply leibniz_equiv in E; congruence|].
  apply elem_of_elements. rewrite E. left.
Qed.
Definition all_cfgs : list (bool * cfg) :=
  b ← [false; true]; c ← (o ← [false; true]; h ← [false; true]; l ← [false; true]; d ← [false; true]; p ← [false; true]; [mkcfg o h l d p]); [(b, c)].
Example ex_worklist : match solve_naively id_ord ex_G 10 ex_cs ex_s with
  | Some (s1, _) => forallb (fun '(b, c) => match solve_worklist id_ord ex_pick 100 ex_G c b 40 ex_cs (fun _ => None) ex_s with
                                            | Some s2 => identical_sol s1 s2 | None => false end) all_cfgs = true
  | None => False
  end.
Proof. vm_compute. reflexivity. Qed.
