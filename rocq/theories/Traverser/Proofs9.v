(** Ids never go back, also when a command throws. *)
From stdpp Require Import base list gmap.
From Verif.Region Require Import Model Spec Proofs Proofs9 Properties.
From Verif.Traverser Require Import Model Spec Proofs Proofs2 Proofs3 Proofs4 Proofs5 Proofs6 Proofs7 Proofs8.

Ltac crunch H := repeat first [
  match type of H with context [match ?x with _ => _ end] => destruct x eqn:?; try discriminate end | progress cbn in H ].
Lemma ni_bottom_added p s s' : on_bottom_added p s = Some s' -> next_id s' = next_id s.
Proof. unfold on_bottom_added. destruct (il_push _ _); [|discriminate]. cbn. intros H. now injection H as <-. Qed.
Lemma ni_bottom_removed p s s' : on_bottom_removed p s = Some s' -> next_id s' = next_id s.
Proof. unfold on_bottom_removed. destruct (il_erase _ _); [|discriminate]. cbn. intros H. now injection H as <-. Qed.
Lemma ni_top_added p s s' : on_top_added p s = Some s' -> next_id s' = next_id s.
Proof. unfold on_top_added. destruct (il_push _ _); [|discriminate]. cbn. intros H. now injection H as <-. Qed.
Lemma ni_top_removed p s s' : on_top_removed p s = Some s' -> next_id s' = next_id s.
Proof. unfold on_top_removed. destruct (il_erase _ _); [|discriminate]. cbn. intros H. now injection H as <-. Qed.
Lemma ni_all_added p s s' : on_node_added p s = Some s' -> next_id s' = next_id s.
Proof. unfold on_node_added. destruct (il_push _ _); [|discriminate]. cbn. intros H. now injection H as <-. Qed.
Lemma ni_all_removed p s s' : on_node_removed p s = Some s' -> next_id s' = next_id s.
Proof. unfold on_node_removed. destruct (il_erase _ _); [|discriminate]. cbn. intros H. now injection H as <-. Qed.
Lemma ni_remove_user i s s' : remove_user i s = Some s' -> next_id s' = next_id s.
Proof.
  unfold remove_user. destruct (inputs s !! i) as [x|]; [|discriminate]. cbn [mbind option_bind]. destruct (in_origin x) as [o|]; [|discriminate]. cbn [mbind option_bind].
  destruct (outputs s !! o) as [y|]; [|discriminate]. cbn [mbind option_bind]. case_decide; [|discriminate].
  destruct (out_owner y) as [n|]; [|intros H'; now injection H' as <-]. cbn [nodes set_outputs set_inputs]. destruct (nodes s !! n); [|discriminate]. cbn [mbind option_bind].
  case_decide; [|intros H'; now injection H' as <-]. intros H'. now apply ni_bottom_added in H'.
Qed.
Lemma ni_add_user i o s s' : add_user i o s = Some s' -> next_id s' = next_id s.
Proof.
  unfold add_user. destruct (inputs s !! i) as [x|]; [|discriminate]. cbn [mbind option_bind]. destruct (outputs s !! o) as [y|]; [|discriminate]. cbn [mbind option_bind].
  case_decide; [discriminate|]. destruct (out_owner y) as [n|]; [|intros H'; now injection H' as <-]. cbn [nodes set_outputs set_inputs]. destruct (nodes s !! n); [|discriminate].
  cbn [mbind option_bind]. case_decide; [|intros H'; now injection H' as <-]. destruct (on_bottom_removed n _) eqn:E; [|discriminate]. intros H'. injection H' as <-. now apply ni_bottom_removed in E.
Qed.
Lemma ni_destroy_inputs l : forall s s', destroy_inputs l s = Some s' -> next_id s' = next_id s.
Proof.
  induction l as [|i l IH]; intros s s' H; cbn in H; [now injection H as <-|]. unfold destroy_input in H. destruct (remove_user i s) as [s1|] eqn:E; [|discriminate]. cbn in H.
  apply IH in H. apply ni_remove_user in E. cbn in H. congruence.
Qed.
Lemma ni_node_dtor p s s' : node_dtor p s = Some s' -> next_id s' = next_id s.
Proof.
  unfold node_dtor. destruct (nodes s !! p) as [nd|]; [|discriminate]. cbn [mbind option_bind]. case_decide; [|discriminate].
  destruct (on_bottom_removed p _) as [s1|] eqn:E1; [|discriminate]. cbn [mbind option_bind].
  destruct (if decide (nd_inputs nd = []) then on_top_removed p s1 else Some s1) as [s2|] eqn:E2; [|discriminate]. cbn [mbind option_bind].
  destruct (destroy_inputs _ s2) as [s3|] eqn:E3; [|discriminate]. cbn [mbind option_bind]. destruct (on_node_removed p s3) as [s4|] eqn:E4; [|discriminate]. cbn [mbind option_bind].
  intros H'. injection H' as <-. cbn. apply ni_all_removed in E4. apply ni_destroy_inputs in E3. apply ni_bottom_removed in E1. cbn in E1.
  assert (next_id s2 = next_id s1). { destruct (decide _); [now apply ni_top_removed in E2|now injection E2 as <-]. } congruence.
Qed.
Lemma ni_node_ctor p s s' : node_ctor p s = Some s' -> next_id s' = S (next_id s).
Proof.
  unfold node_ctor. destruct (on_bottom_added p _) as [s1|] eqn:E1; [|discriminate]. cbn [mbind option_bind]. destruct (on_top_added p s1) as [s2|] eqn:E2; [|discriminate]. cbn [mbind option_bind].
  intros E3. apply ni_all_added in E3. apply ni_top_added in E2. apply ni_bottom_added in E1. cbn in E1. congruence.
Qed.
Section Obs.
  Context {T} (obs : event -> region -> T -> T).
  Definition res_state (r : res (region * T)) : option (region * T) := match r with Ok s | Throws s => Some s | UB => None end.
  Lemma ni_add_input p i o ty b (s s' : region * T) : res_state (add_input obs p i o ty b s) = Some s' -> next_id s'.1 = next_id s.1.
  Proof.
    unfold add_input. destruct (check_types o ty s.1); [|intros H; now injection H as <-]. unfold lift, new_input, add_input_to_node.
    destruct (add_user i o _) as [r|] eqn:E; [|cbn; discriminate]. cbn. apply ni_add_user in E. cbn in E. destruct (nodes r !! p) as [nd|]; [|cbn; discriminate]. cbn.
    destruct (inputs r !! i); [|cbn; discriminate]. cbn. case_decide as D.
    - unfold lift. cbn. destruct (on_top_removed p r) as [r'|] eqn:E'; cbn; [|discriminate]. apply ni_top_removed in E'. intros H. injection H as <-. destruct b; cbn; congruence.
    - cbn. intros H. injection H as <-. destruct b; cbn; congruence.
  Qed.
  Lemma ni_add_inputs p l : forall (s s' : region * T), res_state (add_inputs obs p l s) = Some s' -> next_id s'.1 = next_id s.1.
  Proof.
    induction l as [|[[i o] ty] l IH]; intros s s' H; cbn [add_inputs] in H; [now injection H as <-|]. destruct (add_input obs p i o ty false s) as [s1|s1|] eqn:E.
    - apply IH in H. rewrite H. apply (ni_add_input p i o ty false). now rewrite E.
    - injection H as <-. apply (ni_add_input p i o ty false). now rewrite E.
    - discriminate.
  Qed.
  Lemma ni_divert i o (s s' : region * T) : divert_to obs i o s = Ok s' -> next_id s'.1 = next_id s.1.
  Proof.
    unfold divert_to. destruct (inputs s.1 !! i) as [x|]; [|discriminate]. destruct (in_origin x) as [o0|]; [|discriminate]. case_decide; [intros H'; now injection H' as <-|].
    destruct (check_types _ _ _); [|discriminate]. destruct (remove_user i s.1) as [r|] eqn:E; [|discriminate]. cbn. destruct (add_user i o r) as [r'|] eqn:E'; [|discriminate]. intros H'. injection H' as <-. cbn.
    apply ni_remove_user in E. apply ni_add_user in E'. congruence.
  Qed.
  Lemma ni_divert_users fuel o o' : forall (s s' : region * T), divert_users_loop obs fuel o o' s = Throws s' -> next_id s.1 <= next_id s'.1.
  Proof.
    induction fuel as [|fuel IH]; intros s s' H; cbn [divert_users_loop] in H; destruct (outputs s.1 !! o) as [y|]; try discriminate; destruct (out_users y) as [|i l]; try discriminate.
    destruct (divert_to obs i o' s) as [s1|s1|] eqn:E; [|injection H as <-|discriminate].
    - apply IH in H. apply ni_divert in E. lia.
    - unfold divert_to in E. destruct (inputs s.1 !! i) as [x|]; [|discriminate]. destruct (in_origin x) as [o0|]; [|discriminate]. case_decide; [discriminate|].
      destruct (check_types _ _ _); [|injection E as <-; lia]. destruct (_ ≫= _); discriminate.
  Qed.
  Lemma ni_throws c (s s' : region * T) : exec obs c s = Throws s' -> next_id s.1 <= next_id s'.1.
  Proof.
    assert (forall p (s s' : region * T), unwind p s = Throws s' -> next_id s.1 <= next_id s'.1) as Hu.
    { intros p s0 s1. unfold unwind, lift. destruct (node_dtor p s0.1) as [r|] eqn:E; [|discriminate]. cbn. intros H. injection H as <-. cbn. apply ni_node_dtor in E. lia. }
    destruct c as [p tys ops ins outs|p n|p i o ty|p ix|p o ty|p ix|a ty|k a ty|ix| |i o ty|ix|i o|o o'|p| ]; cbn [exec]; intros H.
    - unfold create_simple, lift in H. destruct (node_ctor p s.1) as [r|] eqn:E; [|discriminate]. cbn in H. apply ni_node_ctor in E. case_decide.
      + destruct (add_inputs obs p _ _) as [s1|s1|] eqn:E1; [destruct (add_outputs _ _ _); discriminate| |discriminate]. apply Hu in H.
        pose proof (ni_add_inputs p (zip (zip ins ops) tys) (r, s.2) s1) as K. rewrite E1 in K. specialize (K eq_refl). cbn in K. lia.
      + apply Hu in H. cbn in H. lia.
    - unfold create_structural, lift in H. destruct (node_ctor p s.1) as [r|] eqn:E; [|discriminate]. cbn in H. apply ni_node_ctor in E. case_decide; [|discriminate]. apply Hu in H. cbn in H. lia.
    - pose proof (ni_add_input p i o ty true s s') as K. rewrite H in K. specialize (K eq_refl). lia.
    - destruct (remove_inputs _ _ _ _); discriminate.
    - destruct (add_output _ _ _ _); discriminate.
    - destruct (remove_outputs _ _ _); discriminate.
    - discriminate.
    - unfold insert_argument in H. case_decide; [injection H as <-; lia|]. destruct (shift_arguments _ _ _); discriminate.
    - destruct (remove_arguments _ _); discriminate.
    - destruct (prune_arguments _); discriminate.
    - unfold add_result in H. destruct (check_types _ _ _); [|injection H as <-; lia]. destruct (_ ≫= _); discriminate.
    - destruct (remove_results _ _ _); discriminate.
    - unfold divert_to in H. destruct (inputs s.1 !! i) as [x|]; [|discriminate]. destruct (in_origin x) as [o0|]; [|discriminate]. case_decide; [discriminate|].
      destruct (check_types _ _ _); [|injection H as <-; lia]. destruct (_ ≫= _); discriminate.
    - unfold divert_users in H. repeat case_match; try discriminate; try (injection H as <-; lia); eapply ni_divert_users; eassumption.
    - destruct (remove_node _ _ _); discriminate.
    - destruct (prune _ _); discriminate.
  Qed.
End Obs.
