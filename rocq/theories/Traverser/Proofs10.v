(** Without creation of nodes, next_id stays. *)
From stdpp Require Import base list gmap.
From Verif.Region Require Import Model Spec Proofs Proofs9 Properties.
From Verif.Traverser Require Import Model Spec Proofs Proofs9.

Section Obs.
  Context {T} (obs : event -> region -> T -> T).
  Lemma ni_remove_inputs_loop ix l : forall live (s s' : region * T) live', remove_inputs_loop obs ix l live s = Some (s', live') -> next_id s'.1 = next_id s.1.
  Proof.
    induction l as [|i l IH]; intros live s s' live' H; cbn [remove_inputs_loop] in H; [now injection H as <- _|].
    destruct (inputs s.1 !! i) as [x|]; [|discriminate]. cbn [mbind option_bind] in H. case_decide.
    - unfold lift, destroy_input in H. cbn in H. destruct (remove_user i s.1) as [r|] eqn:E; [|discriminate]. cbn in H. apply IH in H. apply ni_remove_user in E. cbn in H. congruence.
    - apply IH in H. exact H.
  Qed.
  Lemma ni_remove_outputs_loop a ix l : forall live r r' live', remove_outputs_loop a ix l live r = Some (r', live') -> next_id r' = next_id r.
  Proof.
    induction l as [|o l IH]; intros live r r' live' H; cbn [remove_outputs_loop] in H; [now injection H as <- _|].
    destruct (outputs r !! o) as [x|]; [|discriminate]. cbn [mbind option_bind] in H. case_decide; apply IH in H; exact H.
  Qed.
  Lemma ni_shift l : forall k r r', shift_arguments l k r = Some r' -> next_id r' = next_id r.
  Proof.
    induction l as [|o l IH]; intros k r r' H; cbn [shift_arguments] in H; [now injection H as <-|]. destruct (outputs r !! o) as [y|]; [|discriminate]. cbn [mbind option_bind] in H. apply IH in H. exact H.
  Qed.
  Lemma ni_divert_users_ok fuel o o' : forall (s s' : region * T), divert_users_loop obs fuel o o' s = Ok s' -> next_id s'.1 = next_id s.1.
  Proof.
    induction fuel as [|fuel IH]; intros s s' H; cbn [divert_users_loop] in H; destruct (outputs s.1 !! o) as [y|]; try discriminate; destruct (out_users y) as [|i l]; try discriminate; try (injection H as <-; reflexivity).
    destruct (divert_to obs i o' s) as [s1|s1|] eqn:E; [|discriminate|discriminate]. apply IH in H. apply ni_divert in E. congruence.
  Qed.
  Lemma ni_remove_node p (s s' : region * T) : remove_node obs p s = Some s' -> next_id s'.1 = next_id s.1.
  Proof.
    unfold remove_node. intros H. repeat case_match; try discriminate; unfold lift in *; cbn in *;
    destruct (node_dtor p s.1) as [r|] eqn:E; try discriminate; cbn in H; injection H as <-; apply ni_node_dtor in E; exact E.
  Qed.
  Lemma ni_prune_loop fuel : forall (s s' : region * T), prune_loop obs fuel s = Some s' -> next_id s'.1 = next_id s.1.
  Proof.
    induction fuel as [|fuel IH]; intros s s' H; cbn [prune_loop] in H; destruct (il_elems (bottom s.1)) as [|p l]; try discriminate; try (injection H as <-; reflexivity).
    destruct (remove_node obs p s) as [s1|] eqn:E; [|discriminate]. cbn in H. apply IH in H. apply ni_remove_node in E. congruence.
  Qed.
  Lemma ni_ok c (s s' : region * T) : no_creation c s.1 -> exec obs c s = Ok s' -> next_id s'.1 = next_id s.1.
  Proof.
    destruct c as [p tys ops ins outs|p n|p i o ty|p ix|p o ty|p ix|a ty|k a ty|ix| |i o ty|ix|i o|o o'|p| ]; cbn [exec no_creation]; intros Hg H; try contradiction.
    - apply (ni_add_input obs p i o ty true). now rewrite H.
    - destruct (remove_inputs obs p ix s) as [s1|] eqn:E; [|discriminate]. injection H as ->. unfold remove_inputs in E. case_decide; [now injection E as <-|].
      destruct (nodes s.1 !! p); [|discriminate]. cbn in E. destruct (remove_inputs_loop _ _ _ _ _) as [[s1 live]|] eqn:E1; [|discriminate]. cbn in E. apply ni_remove_inputs_loop in E1.
      destruct (nodes s1.1 !! p); [|discriminate]. cbn in E. case_decide; [|injection E as <-; exact E1]. unfold lift in E. cbn in E. destruct (on_top_added _ _) eqn:E2; [|discriminate]. cbn in E. injection E as <-.
      apply ni_top_added in E2. cbn in *. congruence.
    - destruct (add_output p o ty s) as [s1|] eqn:E; [|discriminate]. injection H as ->. unfold add_output in E. destruct (nodes s.1 !! p); [|discriminate]. cbn in E. now injection E as <-.
    - destruct (remove_outputs p ix s) as [s1|] eqn:E; [|discriminate]. injection H as ->. unfold remove_outputs in E. case_decide; [now injection E as <-|].
      destruct (nodes s.1 !! p); [|discriminate]. cbn in E. destruct (remove_outputs_loop _ _ _ _ _) as [[s1 live]|] eqn:E1; [|discriminate]. cbn in E. apply ni_remove_outputs_loop in E1. injection E as <-. exact E1.
    - now injection H as <-.
    - unfold insert_argument in H. case_decide; [discriminate|]. destruct (shift_arguments _ _ _) eqn:E; [|discriminate]. apply ni_shift in E. injection H as <-. exact E.
    - destruct (remove_arguments ix s) as [s1|] eqn:E; [|discriminate]. injection H as ->. unfold remove_arguments in E. case_decide; [now injection E as <-|].
      destruct (remove_outputs_loop _ _ _ _ _) as [[s1 live]|] eqn:E1; [|discriminate]. cbn in E. apply ni_remove_outputs_loop in E1. injection E as <-. exact E1.
    - destruct (prune_arguments s) as [s1|] eqn:E; [|discriminate]. injection H as ->. unfold prune_arguments in E.
      destruct (remove_outputs_loop _ _ _ _ _) as [[s1 live]|] eqn:E1; [|discriminate]. cbn in E. apply ni_remove_outputs_loop in E1. injection E as <-. exact E1.
    - unfold add_result, new_input in H. destruct (check_types _ _ _); [|discriminate]. destruct (add_user _ _ _) as [r|] eqn:E; [|cbn in H; discriminate]. cbn in H. apply ni_add_user in E.
      destruct (inputs r !! i); [|cbn in H; discriminate]. cbn in H. injection H as <-. exact E.
    - destruct (remove_results obs ix s) as [s1|] eqn:E; [|discriminate]. injection H as ->. unfold remove_results in E. case_decide; [now injection E as <-|].
      destruct (remove_inputs_loop _ _ _ _ _) as [[s1 live]|] eqn:E1; [|discriminate]. cbn in E. apply ni_remove_inputs_loop in E1. injection E as <-. exact E1.
    - now apply ni_divert in H.
    - unfold divert_users in H. repeat case_match; try discriminate; try (injection H as <-; reflexivity); eapply ni_divert_users_ok; eassumption.
    - destruct (remove_node obs p s) as [s1|] eqn:E; [|discriminate]. injection H as ->. now apply ni_remove_node in E.
    - unfold prune in H. destruct (prune_loop _ _ _) as [s1|] eqn:E; [|discriminate]. cbn in H. injection H as ->. now apply ni_prune_loop in E.
  Qed.
End Obs.
