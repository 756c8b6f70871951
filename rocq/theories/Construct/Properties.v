(** From aggregation trees to lambda nodes: the theorems. *)
From stdpp Require Import base list list_numbers fin_sets gmap.
From Verif.Rvsdg Require Import Model Spec Sem Wf WfFacts Det.
From Verif.Construct Require Import Model Spec ProofsSets ProofsSim ProofsWf ProofsTotal ProofsFun.

Section Annotations.
  Context {V : Type} (ctl : V -> option nat) (sem : nat -> list V -> option (list V)) (truth : V -> bool).
  Local Notation exec := (exec ctl sem truth).
  (** C51: a variable outside AllWriteSet has the same value after the subtree as before *)
  Theorem all_writes_sound t prev (σ σ' : nat -> V) v : exec prev t σ σ' -> v ∉ all_writes (tree_sets t) -> σ' v = σ v.
  Proof using. apply frame. Qed.
  (** C51: two states that agree on ReadSet (and on the variable that selects the alternative, if the subtree starts with a branch): the subtree can be
      executed from the second when it can from the first, and ends with the same value in every variable of FullWriteSet and in every other variable that was the same before *)
  Theorem reads_and_full_writes_sound t prev (σ σ' τ : nat -> V) : exec prev t σ σ' ->
    (forall v, v ∈ reads (tree_sets t) -> σ v = τ v) -> (forall p, prev = Some p -> σ p = τ p) ->
    exists τ', exec prev t τ τ' /\ (forall v, v ∈ full_writes (tree_sets t) -> σ' v = τ' v) /\ (forall v, σ v = τ v -> σ' v = τ' v).
  Proof using.
    intros H1 H2 H3. destruct (dep ctl sem truth t prev σ σ' τ H1 H2 H3) as (τ' & G1 & G2 & _). exists τ'. split; [done|]. split; intros v Hv; apply G2; auto.
  Qed.
End Annotations.

Section Conversion.
  Context (order : gset nat -> list nat) (undef : nat -> nat) (match1 : nat).
  Context (Horder : forall s, Permutation (order s) (elements s)).

  (** C52: the module is well-formed *)
  Theorem convert_wf f imports M : convert_module order undef match1 f imports = Some M -> wf M.
  Proof using. apply module_wf. Qed.

  (** C52: when a call of the function returns rs, then the lambda node returns rs and nothing else *)
  Theorem convert_correct {V : Type} (ctl : V -> option nat) (content : V -> V) (sem : nat -> list V -> option (list V)) (truth : V -> bool) (addr imp : nat -> V) :
    (forall v, exists u, sem (undef v) [] = Some [u]) ->
    (forall v, exists w, sem match1 [v] = Some [w] /\ ctl w = Some (if truth v then 1 else 0)) ->
    forall f imports M σ0 xs rs, convert_module order undef match1 f imports = Some M -> NoDup (fargs f) -> NoDup imports ->
      (forall i v, imports !! i = Some v -> σ0 v = imp i) -> (forall v, v ∉ imports -> sem (undef v) [] = Some [σ0 v]) ->
      calls ctl sem truth f σ0 xs rs ->
      exists o id args res, rres M = [o] /\ (o, VLambda id args res) ∈ defs M /\ length args = length xs /\
        forall rs', Forall2 (ev ctl content sem addr imp M (bind (zip args xs))) res rs' <-> rs' = rs.
  Proof using Horder.
    intros Hu Hm f imports M σ0 xs rs Hc H1 H2 H3 H4 H5.
    destruct (module_sim order undef match1 Horder ctl content sem truth addr imp Hu Hm f imports M σ0 xs rs Hc H1 H2 H3 H4 H5) as (o & id & args & res & G1 & G2 & G3 & G4).
    exists o, id, args, res. split; [done|]. split; [done|]. split; [done|]. intros rs'. split; [|by intros ->].
    pose proof (module_wf order undef match1 f imports M Hc) as (_ & Hnd & _). intros H. revert G4 H. generalize (ev ctl content sem addr imp M (bind (zip args xs))) (ev_det ctl content sem addr imp M Hnd (bind (zip args xs))). clear.
    intros R HR H. revert rs'. induction H as [|x y l k Hx Hl IH]; intros rs' H; inversion H; subst; [done|]. f_equal; [by eapply HR | by apply IH].
  Qed.

  (** C53: no lookup of a variable and no assertion fails *)
  Theorem convert_total_partial f imports : function_ok f -> fold_right and True (map no_gap (fbody f)) -> exists M, convert_module order undef match1 f imports = Some M.
  Proof using Horder. by apply module_total. Qed.
End Conversion.

(** a function that meets the hypotheses: f(n) { a = one + one; do { if (n odd) { b = a; a = b + one } else a = a + n; n = n - 1; r = n ? one : n } while (n); return a, r } *)
Definition ex_sem (op : nat) (vs : list nat) : option (list nat) :=
  match op, vs with
  | 0, [x] => Some [x - 1] | 1, [x] => Some [if decide (x = 0) then 0 else 1] | 2, [x] => Some [if decide (x = 0) then 0 else 1]
  | 3, [x; y] => Some [x + y] | 4, [x] => Some [x mod 2] | S (S (S (S (S _)))), [] => Some [7] | _, _ => None
  end.
Definition ex_truth (x : nat) : bool := bool_decide (x <> 0).
Definition ex_fun : function := Function [0] [1; 5]
  [Block [Op 3 [9; 9] [1]];
   Loop (Linear [Block [Op 4 [0] [2]; BranchOn 2]; Branch [Block [Op 3 [1; 0] [1]]; Block [Assign 4 1; Op 3 [4; 9] [1]]];
                 Block [Op 0 [0] [0]; Select 0 9 0 5; Op 2 [0] [3]; BranchOn 3]])].
Definition ex_imp (i : nat) : nat := 1.
Definition ex_store (v : nat) : nat := if decide (v = 9) then 1 else 7.
Lemma gap_dec (a f g : gset nat) : bool_decide ((a ∖ f) ∩ g = ∅) = true -> forall v, v ∈ a -> v ∉ f -> v ∉ g.
Proof. intros H%bool_decide_eq_true v H1 H2 H3. apply (not_elem_of_empty (C:=gset nat) v). rewrite <-H. apply elem_of_intersection. split; [apply elem_of_difference; auto | done]. Qed.
Example ex_ok : function_ok ex_fun /\ fold_right and True (map no_gap (fbody ex_fun)).
Proof.
  split; [split; [apply NoDup_singleton|]|].
  - cbn. repeat split; try done; try (eexists; reflexivity).
  - cbn -[tree_sets]. repeat split; apply gap_dec; vm_compute; reflexivity.
Qed.
Example ex_sem_ok : (forall v, exists u, ex_sem (10 + v) [] = Some [u]) /\ (forall v, exists w, ex_sem 1 [v] = Some [w] /\ Some w = Some (if ex_truth v then 1 else 0)) /\
  (forall i v, [9] !! i = Some v -> ex_store v = ex_imp i) /\ (forall v, v ∉ [9] -> ex_sem (10 + v) [] = Some [ex_store v]).
Proof.
  split; [intros v; by eexists|]. split; [|split].
  - intros v. eexists. split; [done|]. unfold ex_truth. destruct v; done.
  - intros [|i] v H; [injection H as <-; done | by destruct i].
  - intros v Hv. unfold ex_store. rewrite decide_False; [done|]. intros ->. apply Hv. left.
Qed.
Ltac ex_step := first [reflexivity | eexists; split; [vm_compute; reflexivity | split; [reflexivity | reflexivity]]].
Example ex_calls : calls Some ex_sem ex_truth ex_fun ex_store [2] [5; 0].
Proof.
  split; [done|]. eexists. split.
  - eexists. split; [eexists; split; [ex_step | reflexivity]|]. eexists. split; [|reflexivity]. exists 3. split; [done|]. eapply rep_next.
    + eexists. split; [eexists; split; [ex_step|]; eexists; split; [ex_step | reflexivity]|]. eexists. split.
      { exists 2, 0. split; [done|]. split; [vm_compute; reflexivity|]. eexists. split; [ex_step | reflexivity]. }
      eexists. split; [|reflexivity]. do 4 (eexists; split; [ex_step|]). reflexivity.
    + vm_compute. reflexivity.
    + eapply rep_exit.
      * eexists. split; [eexists; split; [ex_step|]; eexists; split; [ex_step | reflexivity]|]. eexists. split.
        { exists 2, 1. split; [done|]. split; [vm_compute; reflexivity|]. do 2 (eexists; split; [ex_step|]). reflexivity. }
        eexists. split; [|reflexivity]. do 4 (eexists; split; [ex_step|]). reflexivity.
      * vm_compute. reflexivity.
  - vm_compute. reflexivity.
Qed.
(** so the lambda node of that function returns 5 and 0 for the argument 2 *)
Example ex_converted : exists M o id args res, convert_module elements (fun v => 10 + v) 1 ex_fun [9] = Some M /\ wf M /\ rres M = [o] /\ (o, VLambda id args res) ∈ defs M /\ length args = 1 /\
  forall rs, Forall2 (ev Some (fun x => x) ex_sem (fun x => x) ex_imp M (bind (zip args [2]))) res rs <-> rs = [5; 0].
Proof.
  destruct ex_ok as [H1 H2]. destruct ex_sem_ok as (H3 & H4 & H5 & H6).
  destruct (convert_total_partial elements (fun v => 10 + v) 1 ltac:(done) ex_fun [9] H1 H2) as [M HM]. exists M.
  destruct (convert_correct elements (fun v => 10 + v) 1 ltac:(done) Some (fun x => x) ex_sem ex_truth (fun x => x) ex_imp H3 H4 ex_fun [9] M ex_store [2] [5; 0] HM (NoDup_singleton 0) (NoDup_singleton 9) H5 H6 ex_calls) as (o & i & args & res & G1 & G2 & G3 & G4).
  exists o, i, args, res. split; [done|]. split; [by eapply convert_wf|]. exact (conj G1 (conj G2 (conj G3 G4))).
Qed.

(** C53 fails without the condition: f(c) { if (c) { if (c) v = c; if (c) v = c; else v = c; w = v } else w = c; return w }. In the first alternative the second inner branch writes v in
    both of its alternatives, the first in one. The demand set of the first then contains v (Annotation.cpp:422-445 does not take what a branch always writes out of the working set),
    but the linear node that contains it takes it out: the outer branch has no input for v, and the lookup of v in the inner one fails. *)
Definition bad_fun : function := Function [0] [2]
  [Block [BranchOn 0];
   Branch [Block [Assign 2 0];
           Linear [Block [BranchOn 0]; Branch [Block []; Block [Assign 1 0]]; Block [BranchOn 0]; Branch [Block [Assign 1 0]; Block [Assign 1 0]]; Block [Assign 2 1]]]].
Theorem convert_total_refuted : function_ok bad_fun /\ convert_module elements (fun v => 10 + v) 1 bad_fun [] = None /\
  forall x, x = 0 \/ x = 1 -> calls Some ex_sem ex_truth bad_fun (fun _ => 7) [x] [x].
Proof.
  split; [|split].
  - split; [apply NoDup_singleton|]. cbn. repeat split; try done; try (eexists; reflexivity).
  - vm_compute. reflexivity.
  - intros x [->| ->]; (split; [done|]); eexists; split.
    + eexists. split; [eexists; split; [ex_step | reflexivity]|]. eexists. split; [|reflexivity]. exists 0, 0. split; [done|]. split; [done|]. eexists. split; [ex_step | reflexivity].
    + vm_compute. reflexivity.
    + eexists. split; [eexists; split; [ex_step | reflexivity]|]. eexists. split; [|reflexivity]. exists 0, 1. split; [done|]. split; [done|].
      eexists. split; [eexists; split; [ex_step | reflexivity]|]. eexists. split. { exists 0, 1. split; [done|]. split; [done|]. eexists. split; [ex_step | reflexivity]. }
      eexists. split; [eexists; split; [ex_step | reflexivity]|]. eexists. split. { exists 0, 1. split; [done|]. split; [done|]. eexists. split; [ex_step | reflexivity]. }
      eexists. split; [eexists; split; [ex_step | reflexivity]|]. reflexivity.
    + vm_compute. reflexivity.
Qed.
