(** Invariant value redirection: the theorems. *)
From stdpp Require Import base list list_numbers fin_sets gmap.
From Verif.Rvsdg Require Import Model Spec Sem Wf WfFacts Args Refine Chase.
From Verif.Dne Require Import Model ProofsShrink ProofsIds ProofsMain.
From Verif.Ivr Require Import Model Spec ProofsRel ProofsWf ProofsMain.

(** C37: the module stays well-formed *)
Theorem ivr_well_formed cfg io ord t : wf t -> wf (ivr cfg io ord t).
Proof. apply ivr_wf. Qed.
(** C37: nothing new: the outputs and nodes of the new module are some of those of the old one, in the same order *)
Theorem ivr_only_removes cfg io ord t : wf t -> (defs (ivr cfg io ord t)).*1 `sublist_of` (defs t).*1 /\ region_ids (ivr cfg io ord t) `sublist_of` region_ids t.
Proof. rewrite wf_good. intros Hg. destruct (proj2 (top_ok cfg io ord) t Hg) as (_ & [H1 H2] & _). rewrite !defs_keys_eq. done. Qed.

Section Values.
  Context {V : Type} (ctl : V -> option nat) (content : V -> V) (sem : nat -> list V -> option (list V)) (addr imp : nat -> V).
  (** C37: whatever the order in which the nodes are visited, the results, functions and global variables of the module, and
      every output that is left, keep their values *)
  Theorem ivr_refines cfg io ord t : wf t -> passes sem (fun d => d ∈ defs t) -> refines ctl content sem addr imp t (ivr cfg io ord t).
  Proof using.
    intros Hw Hp. pose proof (ivr_wf cfg io ord t Hw) as (Hw1' & Hw2' & _). destruct Hw as (Hw1 & Hw2 & _).
    destruct (proj2 (top_rel (fun d => d ∈ defs t) cfg io ord) t) as (Ha & Hr & Hd). { intros d Hd. unfold defs. apply elem_of_app. by right. }
    apply chase_refines; try done. intros o w' Ho. unfold defs in Ho. apply elem_of_app in Ho as [Ho|Ho].
    - apply elem_of_list_In, in_map_iff in Ho as (a & [= -> <-] & Hin%elem_of_list_In). exists (VImport o). split; [|apply vrel_refl]. unfold defs. apply elem_of_app. left. apply elem_of_list_In, in_map_iff. exists o. rewrite <-elem_of_list_In, <-Ha. done.
    - destruct (Hd _ _ Ho) as (w & Hin & Hv). exists w. split; [|done]. unfold defs. apply elem_of_app. by right.
  Qed.
End Values.

(** C38: in the functions of the new module, the invariant loop variables (other than I/O states) and exit variables have no users *)
Theorem ivr_no_invariant_users cfg io ord t : wf t -> (forall ns n, n ∈ ns -> nid n ∈ ord ns) ->
  forall r n o, fun_region (ivr cfg io ord t) r -> n ∈ rnodes r ->
    (on_theta cfg = true /\ io o = false /\ invariant_loop_var n o) \/ (on_gamma cfg = true /\ invariant_exit_var n o) -> no_users o r.
Proof. rewrite wf_good. intros Hg Ho r n o Hr Hn Hs. exact (proj2 (top_clean cfg io ord Ho) t Hg r Hr n o Hn Hs). Qed.
