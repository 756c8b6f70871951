(** A module that meets the hypotheses: a function with a loop, a branch and a load whose value is not used. *)
From stdpp Require Import base list list_numbers fin_sets gmap relations.
From Verif.Rvsdg Require Import Model Spec Sem Wf.
From Verif.Dne Require Import Model Spec.

Definition ex_loop : node := Node 30 Theta [13; 13] [31; 32] [Region [33; 34] [35; 33; 34] [Node 36 (Simple 6) [33] [35] []]].
Definition ex_branch : node := Node 40 Gamma [41; 31; 31] [42; 43] [Region [44; 45; 46] [45; 46] []; Region [47; 48; 49] [48; 49] []].
Definition ex : region :=
  Region [1; 2] [15]
    [Node 60 Delta [] [61] [Region [] [62] [Node 63 (Simple 9) [] [62] []]];
     Node 10 (Lambda 3) [1; 61] [15]
       [Region [11; 12; 13; 14; 16] [42; 22]
         [Node 20 (Load 5) [11; 12] [21; 22] []; ex_loop; Node 39 (Simple 7) [31] [41] []; ex_branch; Node 50 (Simple 8) [14; 43] [51] []]]].
Definition ex' : region :=
  Region [] [15]
    [Node 10 (Lambda 3) [] [15]
       [Region [11; 12; 13] [42; 12]
         [Node 30 Theta [13] [31] [Region [33] [35; 33] [Node 36 (Simple 6) [33] [35] []]]; Node 39 (Simple 7) [31] [41] [];
          Node 40 Gamma [41; 31] [42] [Region [44; 45] [45] []; Region [47; 48] [48] []]]]].

Ltac mem := apply (bool_decide_unpack _); vm_compute; exact I.
Example ex_wf : wf ex.
Proof.
  split; [|split; mem].
  cbn; repeat (split || apply Forall_cons_2 || apply Forall_nil_2); try exact I; try discriminate; try mem.
  all: try (eexists; split; [reflexivity|]; cbn; repeat split; repeat (apply Forall_cons_2 || apply Forall_nil_2); eauto).
Qed.
Example ex_dne : dne ex = Some ex'.
Proof. vm_compute. reflexivity. Qed.
(** operation 5 returns the value and the memory state it is given *)
Example ex_pass : loads_pass_states (fun op (vs : list nat) => if decide (op = 5) then Some (map (fun '(i, v) => if decide (i = 0) then 7 else v) (imap pair vs)) else Some [0]) ex.
Proof.
  intros o id op k ins vs ws H. assert (op = 5) as ->.
  { apply elem_of_list_In in H. cbn in H. repeat destruct H as [H|H]; congruence || done. }
  cbn. intros [= <-]. change (((fun '(i, v) => if decide (i = 0) then 7 else v) <$> imap pair vs) !! S k = vs !! S k).
  rewrite list_lookup_fmap, list_lookup_imap. destruct (vs !! S k); done.
Qed.
