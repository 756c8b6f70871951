(** A struct whose address goes around a loop and which is read and written
    through the addresses of its two elements. *)
From stdpp Require Import base list.
From Verif.AllocaSplit Require Import Model Spec Proofs.

(* 0: the struct; 1: pre value of a theta node, 2: its output; 3: &s.x in the
   loop; 4: &s.y after it; 5: another struct whose address is stored. *)
Definition p_ok : prog := Prog [Alloca; Copies [0; 1]; Copies [1]; Gep 1 [0; 0]; Gep 2 [0; 1]; Alloca; Gep 5 [0; 0]] [3; 4; 6] [5].
Example p_ok_splitable : splitable p_ok 0 = true /\ splitable p_ok 5 = false. Proof. split; vm_compute; reflexivity. Qed.
Example p_ok_unsplit : unsplit p_ok.
Proof. intros v a idx H. do 7 (destruct v as [|v]; [discriminate H|]). discriminate H. Qed.
Example p_ok_exclusive : exclusive p_ok.
Proof.
  intros a v us u Ha Hv Hd Hu.
  assert (a = 0) as -> by (do 7 (destruct a as [|a]; [first [reflexivity|vm_compute in Ha; discriminate Ha]|]); vm_compute in Ha; discriminate Ha).
  assert (copy_of p_ok 0 1) as H1 by (apply (copy_step p_ok 0 0 1 [0; 1]); [constructor|reflexivity|apply elem_of_list_here]).
  destruct v as [|[|[|[|[|[|[|v]]]]]]]; try discriminate Hd; injection Hd as <-.
  - apply elem_of_cons in Hu as [->|Hu]; [constructor|]. apply elem_of_list_singleton in Hu as ->. exact H1.
  - apply elem_of_list_singleton in Hu as ->. exact H1.
Qed.
Example p_ok_split : defs (split_all p_ok) = [Alloca; Copies [0; 1]; Copies [1]; Element 0 [0; 0]; Element 0 [0; 1]; Alloca; Gep 5 [0; 0]].
Proof. vm_compute. reflexivity. Qed.
Example p_ok_points : points (split_all p_ok) 4 (0, [0; 1]).
Proof. apply alloca_split_preserves_partial; [exact p_ok_unsplit|exact p_ok_exclusive|].
  apply (points_gep p_ok 4 2 [0; 1] 0 []); [reflexivity|]. apply (points_copy p_ok 2 [1] 1); [reflexivity|apply elem_of_list_here|].
  apply (points_copy p_ok 1 [0; 1] 0); [reflexivity|apply elem_of_list_here|constructor; reflexivity]. Qed.
Example p_ok_dead : 3 ∉ escapes p_ok. Proof. refine (proj1 (proj2 (splitable_private p_ok 0 eq_refl) 1 3 [0; 0] 3 _ eq_refl _)); [|constructor].
  apply (copy_step p_ok 0 0 1 [0; 1]); [constructor|reflexivity|apply elem_of_list_here]. Qed.
Example p_ok_old_dead : 2 ∉ accesses (split_all p_ok).
Proof. apply (alloca_split_dead p_ok 0 2 eq_refl). apply (derived_copy _ _ 1 2 [1]); [|reflexivity|apply elem_of_list_here].
  apply (derived_copy _ _ 0 1 [0; 1]); [constructor|reflexivity|apply elem_of_list_here]. Qed.
Example nested_elements : element_allocas (Struct [Struct [Scalar; Array]; Scalar]) = [[0; 0; 0]; [0; 0; 1]; [0; 1]]. Proof. reflexivity. Qed.
Example nested_found : [0; 0; 1] ∈ element_allocas (Struct [Struct [Scalar; Array]; Scalar]).
Proof. apply element_allocas_complete. exists [0; 1], Array. split; [reflexivity|]. split; [|intros [us [=]]].
  apply (part_element _ 0 (Struct [Scalar; Array])); [reflexivity|]. apply (part_element _ 1 Array); [reflexivity|constructor]. Qed.
