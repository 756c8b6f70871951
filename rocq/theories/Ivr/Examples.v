(** Modules that meet the hypotheses, and the order in which nodes are visited. *)
From stdpp Require Import base list list_numbers fin_sets gmap.
From Verif.Rvsdg Require Import Model Spec Sem Wf WfFacts Args Refine Chase.
From Verif.Dne Require Import Model.
From Verif.Ivr Require Import Model Spec.

Ltac mem := apply (bool_decide_unpack _); vm_compute; exact I.
(** a function with arguments 11 (address), 12 (memory), 13, 14: a load whose value is unused; a loop that does not change 13; a branch that gets 13
    directly and through the loop, and returns the one in the first branch and the other in the second *)
Definition ex : region :=
  Region [] [15]
    [Node 10 (Lambda 4) [] [15]
       [Region [11; 12; 13; 14] [42; 22; 32]
         [Node 20 (Load 5) [11; 12] [21; 22] [];
          Node 30 Theta [13; 14] [31; 32] [Region [33; 34] [35; 33; 37] [Node 36 (Simple 6) [33] [35] []; Node 38 (Simple 8) [34] [37] []]];
          Node 39 (Simple 7) [14] [41] [];
          Node 40 Gamma [41; 13; 31] [42] [Region [44; 45; 46] [45] []; Region [47; 48; 49] [49] []]]]].
Example ex_wf : wf ex.
Proof.
  split; [|split; mem].
  cbn; repeat (split || apply Forall_cons_2 || apply Forall_nil_2); try exact I; try discriminate; try mem.
  all: try (eexists; split; [reflexivity|]; cbn; repeat split; repeat (apply Forall_cons_2 || apply Forall_nil_2); eauto).
Qed.
Definition all_on : config := Config true true true.
(** visited from top to bottom: the branch and the load go *)
Example ex_down : ivr all_on (fun _ => false) (map nid) ex =
  Region [] [15] [Node 10 (Lambda 4) [] [15] [Region [11; 12; 13; 14] [13; 12; 32]
    [Node 30 Theta [13; 14] [31; 32] [Region [33; 34] [35; 33; 37] [Node 36 (Simple 6) [33] [35] []; Node 38 (Simple 8) [34] [37] []]]]]].
Proof. vm_compute. reflexivity. Qed.
(** visited from bottom to top: the branch stays *)
Example ex_up : ivr all_on (fun _ => false) (fun ns => rev (map nid ns)) ex =
  Region [] [15] [Node 10 (Lambda 4) [] [15] [Region [11; 12; 13; 14] [42; 12; 32]
    [Node 30 Theta [13; 14] [31; 32] [Region [33; 34] [35; 33; 37] [Node 36 (Simple 6) [33] [35] []; Node 38 (Simple 8) [34] [37] []]];
     Node 39 (Simple 7) [14] [41] []; Node 40 Gamma [41; 13; 13] [42] [Region [44; 45; 46] [45] []; Region [47; 48; 49] [49] []]]]].
Proof. vm_compute. reflexivity. Qed.
(** InvariantValueRedirection.cpp:134-135 says that the order in which the nodes are visited is irrelevant: it is not *)
Theorem ivr_order_irrelevant_refuted : exists t cfg io (ord ord' : list node -> list nat), wf t /\
  (forall ns, ord ns ≡ₚ map nid ns) /\ (forall ns, ord' ns ≡ₚ map nid ns) /\ ivr cfg io ord t <> ivr cfg io ord' t.
Proof.
  exists ex, all_on, (fun _ => false), (map nid), (fun ns => rev (map nid ns)). split; [apply ex_wf|]. split; [done|]. split.
  - intros ns. symmetry. apply Permutation_rev.
  - rewrite ex_down, ex_up. discriminate.
Qed.
(** the hypothesis on loads: operation 5 returns a value and the memory state it is given *)
Example ex_pass : passes (fun op (vs : list nat) => if decide (op = 5) then Some (map (fun '(i, v) => if decide (i = 0) then 7 else v) (imap pair vs)) else Some [0]) (fun d => d ∈ defs ex).
Proof.
  intros o id op k ins vs ws H. assert (op = 5) as ->.
  { apply elem_of_list_In in H. cbn in H. repeat destruct H as [H|H]; congruence || done. }
  cbn. intros [= <-]. change (((fun '(i, v) => if decide (i = 0) then 7 else v) <$> imap pair vs) !! S k = vs !! S k).
  rewrite list_lookup_fmap, list_lookup_imap. destruct (vs !! S k); done.
Qed.
(** the loop variable 31 is invariant, in a region of a function *)
Example ex_invariant : exists r n, fun_region (ivr all_on (fun _ => false) (map nid) ex) r /\ n ∈ rnodes r /\ invariant_loop_var n 31.
Proof.
  rewrite ex_down. eexists _, _. split; [eapply fr_lambda; [left | done | left]|]. split; [left|]. split; [done|]. exists 0. eexists _, _. done.
Qed.
