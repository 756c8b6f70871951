(** Property theorems for jlm/util/TarjanScc.hpp (C08). *)
From stdpp Require Import base list list_numbers relations.
From Verif.Tarjan Require Import Model Spec Proofs.

(** C08. For every graph (any number of nodes, any unification function, any
    successor lists) whose edges lead to nodes, the algorithm terminates
    without popping an empty stack and its results satisfy everything the
    header documents ([scc_result] in Spec.v). *)
Theorem tarjan_correct :
  forall (numNodes MAX : nat) (unificationRoot : nat -> nat) (successors : nat -> list nat)
         (oldSccIndex : nat -> nat),
  numNodes < MAX -> (* numNodes <= SCC_FINISHED = MAX - 1, the JLM_ASSERT *)
  well_formed numNodes unificationRoot successors ->
  exists s, run numNodes MAX unificationRoot successors oldSccIndex = Some s /\
    scc_result numNodes unificationRoot successors (sccsFinished s) (sccIndex s) (rto s) oldSccIndex.
Proof. intros. now apply run_correct. Qed.
Print Assumptions tarjan_correct.

(** The overload without unification (TarjanScc.hpp:180-205): every index is a node. *)
Theorem tarjan_correct_identity :
  forall (numNodes MAX : nat) (successors : nat -> list nat) (oldSccIndex : nat -> nat),
  numNodes < MAX ->
  (forall v x, v < numNodes -> x ∈ successors v -> x < numNodes) ->
  exists s, run numNodes MAX (fun v => v) successors oldSccIndex = Some s /\
    scc_result numNodes (fun v => v) successors (sccsFinished s) (sccIndex s) (rto s) oldSccIndex /\
    length (rto s) = numNodes.
Proof.
  intros n MAX succs idx0 Hn Hs.
  destruct (run_correct n MAX (fun v => v) succs idx0 Hn) as (s & He & R).
  { intros v x [Hv _] Hx. split; [eapply Hs; eassumption|reflexivity]. }
  exists s. split; [exact He|]. split; [exact R|].
  rewrite <- (seq_length n 0). apply Permutation_length. apply NoDup_Permutation.
  - apply (r_nodup _ _ _ _ _ _ _ R).
  - apply NoDup_seq.
  - intros x. rewrite (r_nodes _ _ _ _ _ _ _ R). rewrite elem_of_seq. unfold is_node.
    split; intros H; [destruct H|split; [|reflexivity]]; lia.
Qed.
Print Assumptions tarjan_correct_identity.

(** Non-vacuity: 0 -> {1,2}, 1 -> {2,5}, 2 -> {0}, 3 -> {2,4}, 4 -> {}, and 5
    is unified with 4 (so 1 -> 4). *)
Definition ex_root (v : nat) : nat := if v =? 5 then 4 else v.
Definition ex_succs (v : nat) : list nat :=
  match v with 0 => [1; 2] | 1 => [2; 5] | 2 => [0; 0] | 3 => [2; 4] | _ => [] end.
Example ex_wf : well_formed 6 ex_root ex_succs.
Proof.
  intros v x [Hv _] Hx.
  do 6 (destruct v as [|v]; [simpl in Hx;
    repeat (apply elem_of_cons in Hx as [->|Hx]; [now (split; [vm_compute; lia|reflexivity])|]); inversion Hx|]).
  lia.
Qed.
Example ex_run :
  exists s, run 6 255 ex_root ex_succs (fun _ => 77) = Some s /\
    sccsFinished s = 3 /\ map (sccIndex s) (seq 0 6) = [1; 1; 1; 2; 0; 77] /\ rto s = [4; 1; 2; 0; 3].
Proof. eexists. split; [vm_compute; reflexivity|]. vm_compute. auto. Qed.
