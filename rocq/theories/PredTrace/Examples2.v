From stdpp Require Import base list gmap numbers relations.
From Verif.PredTrace Require Import Model Spec Proofs1 Proofs2 Proofs3 Proofs4 Examples.

(* A gamma (regions 1 and 2 hand on 0 and 1), whose output is an invariant
   variable of a loop (region 3, with a gamma of regions 4 and 5 in it); the
   loop's output chooses between regions 6 and 7. *)
Definition loop_graph : graph := {|
  origin := fun i => match i with 0 => 0 | 1 => 1 | 2 => 2 | 3 => 4 | 4 => 5 | 5 => 3 | 6 => 7 | 7 => 8 | _ => 9 end;
  odefn := fun o => match o with
    | 1 => OGammaOut [3; 4]
    | 2 => OThetaOut 1 5 3
    | 3 => OThetaPre 1 5
    | 4 => OConst 0 2
    | 5 => OConst 1 2
    | 6 => OGammaOut [6; 7]
    | 7 => OConst 1 2
    | 8 => OConst 1 2
    | _ => OOther end;
  iregion := fun i => match i with 3 => 1 | 4 => 2 | 5 => 3 | 6 => 4 | 7 => 5 | 8 => 3 | _ => 0 end;
  istruct := fun i => match i with 3 | 4 | 5 | 6 | 7 => true | _ => false end;
  ity := fun _ => Some 2;
  rpar := fun r => match r with
    | 1 => RGamma 0 0 0 | 2 => RGamma 0 0 1
    | 3 => ROther 0
    | 4 => RGamma 3 8 0 | 5 => RGamma 3 8 1
    | 6 => RGamma 0 2 0 | 7 => RGamma 0 2 1
    | _ => RTop end
|}.
(* the loop variable gets the output of the inner gamma *)
Definition loop_graph' : graph := divert loop_graph 5 6.

Tactic Notation "split_ids" ident(n) := do 10 try (destruct n as [|n]).

Lemma loop_graph_wf : wf loop_graph.
Proof.
  split.
  - intros i rs res Ho Hin. split_ids i; simpl in Ho; try discriminate; injection Ho as <-;
      repeat (apply elem_of_cons in Hin as [->|Hin]; [split; [reflexivity|eexists; eexists; reflexivity]|]);
      apply elem_of_nil in Hin; destruct Hin.
  - intros i inp Ho. split_ids i; simpl in Ho; discriminate.
  - intros i inp post pre Ho. split_ids i; simpl in Ho; try discriminate; injection Ho as <- <- <-; repeat split.
  - intros i inp post Ho. split_ids i; simpl in Ho; try discriminate; injection Ho as <- <-; reflexivity.
  - intros r outer pred index Ho. split_ids r; simpl in Ho; try discriminate; injection Ho as <- <- <-; (split; [reflexivity|]); exists 2; (split; [reflexivity|lia]).
  - intros i j n Hi _. exact Hi.
  - intros i alt nalts Ho. split_ids i; simpl in Ho; try discriminate; injection Ho as <- <-; (split; [lia|reflexivity]).
Qed.

Lemma loop_graph'_wf : wf loop_graph'.
Proof.
  split.
  - intros i rs res Ho Hin. split_ids i; simpl in Ho; try discriminate; injection Ho as <-;
      repeat (apply elem_of_cons in Hin as [->|Hin]; [split; [reflexivity|eexists; eexists; reflexivity]|]);
      apply elem_of_nil in Hin; destruct Hin.
  - intros i inp Ho. split_ids i; simpl in Ho; discriminate.
  - intros i inp post pre Ho. split_ids i; simpl in Ho; try discriminate; injection Ho as <- <- <-; repeat split.
  - intros i inp post Ho. split_ids i; simpl in Ho; discriminate.
  - intros r outer pred index Ho. split_ids r; simpl in Ho; try discriminate; injection Ho as <- <- <-; (split; [reflexivity|]); exists 2; (split; [reflexivity|lia]).
  - intros i j n Hi _. exact Hi.
  - intros i alt nalts Ho. split_ids i; simpl in Ho; try discriminate; injection Ho as <- <-; (split; [lia|reflexivity]).
Qed.

Lemma loop_graph'_acyclic : acyclic loop_graph'.
Proof.
  split.
  - exists (fun i => match i with 2 => 3 | 5 => 2 | 1 => 2 | 3 | 4 | 6 | 7 => 1 | _ => 0 end).
    intros i j H. apply source_cases in H. split_ids i; simpl in H; try (destruct H; fail).
    + repeat (apply elem_of_cons in H as [->|H]; [lia|]). apply elem_of_nil in H. destruct H.
    + subst j. lia.
    + repeat (apply elem_of_cons in H as [->|H]; [lia|]). apply elem_of_nil in H. destruct H.
  - exists (fun r => match r with 0 => 0 | 4 | 5 => 2 | 3 => 1 | 1 | 2 | 6 | 7 => 1 | _ => 0 end). intros r. split_ids r; simpl; try lia; exact I.
Qed.

Definition loop_val (o : nat) : nat := match o with 2 | 6 | 7 => 1 | _ => 0 end.
Definition loop_entered (r : nat) : Prop := r ∈ [0; 1; 3; 4; 7].

Lemma loop_execution : execution loop_graph' loop_val loop_entered.
Proof.
  assert (Hno : forall r, loop_entered r -> r = 0 \/ r = 1 \/ r = 3 \/ r = 4 \/ r = 7).
  { intros r Hr. unfold loop_entered in Hr. repeat (apply elem_of_cons in Hr as [->|Hr]; [lia|]). apply elem_of_nil in Hr. destruct Hr. }
  assert (Hin : forall r, r = 0 \/ r = 1 \/ r = 3 \/ r = 4 \/ r = 7 -> loop_entered r).
  { intros r Hr. unfold loop_entered. destruct Hr as [->|[->|[->|[->| ->]]]]; repeat (first [left|right]). }
  split.
  - intros r outer pred index Ho Hr. apply Hno in Hr. destruct Hr as [->|[->|[->|[->| ->]]]]; simpl in Ho; try discriminate;
      injection Ho as <- <- <-; (split; [apply Hin; lia|reflexivity]).
  - intros r outer Ho Hr. apply Hno in Hr. destruct Hr as [->|[->|[->|[->| ->]]]]; simpl in Ho; try discriminate.
    injection Ho as <-. apply Hin. lia.
  - intros i n _ Hn. injection Hn as <-. split_ids i; simpl; lia.
  - intros i alt nalts Hi Ho. split_ids i; simpl in Ho; try discriminate; injection Ho as <- <-; try reflexivity;
      exfalso; apply Hno in Hi; simpl in Hi; lia.
  - intros i rs Hi Ho. split_ids i; simpl in Ho; try discriminate; injection Ho as <-.
    + exists 3. split; [left|]. split; [apply Hin; simpl; lia|]. split; [reflexivity|].
      intros res' Hr He. apply elem_of_cons in Hr as [->|Hr]; [reflexivity|]. apply elem_of_list_singleton in Hr as ->.
      apply Hno in He. simpl in He. lia.
    + exists 6. split; [left|]. split; [apply Hin; simpl; lia|]. split; [reflexivity|].
      intros res' Hr He. apply elem_of_cons in Hr as [->|Hr]; [reflexivity|]. apply elem_of_list_singleton in Hr as ->.
      apply Hno in He. simpl in He. lia.
  - intros i inp Hi Ho. split_ids i; simpl in Ho; discriminate.
  - intros i inp post pre Hi Ho. split_ids i; simpl in Ho; try discriminate. injection Ho as <- <- <-.
    split; [apply Hin; simpl; lia|reflexivity].
  - intros i inp post Hi Ho _. split_ids i; simpl in Ho; discriminate.
Qed.

(* The observers of a loop region are missing when the loop variable is
   invariant: after it has changed, the check still says no, although a new
   object says yes and an execution enters both regions. *)
Theorem check_stale_refuted :
  exists g0 g t fuel org target val ent, history g0 g t /\ wf g0 /\ wf g /\ acyclic g /\
    execution g val ent /\ ent org /\ ent target /\
    option_map fst (check fuel g org target t) = Some false /\ option_map fst (check fuel g org target fresh) = Some true.
Proof.
  destruct (check 10 loop_graph 1 7 fresh) as [[b t]|] eqn:E; [|vm_compute in E; discriminate].
  exists loop_graph, loop_graph', (on_input_change loop_graph' 5 t), 10, 1, 7, loop_val, loop_entered.
  split.
  { unfold loop_graph'. apply history_divert. eapply history_check; [apply history_fresh|exact loop_graph_wf|exact E]. }
  split; [exact loop_graph_wf|]. split; [exact loop_graph'_wf|]. split; [exact loop_graph'_acyclic|]. split; [exact loop_execution|].
  split; [unfold loop_entered; right; left|]. split; [unfold loop_entered; do 4 right; left|].
  vm_compute in E. injection E as <- <-. split; vm_compute; reflexivity.
Qed.

(* GetRegionPredicateAssignConstraints observes too little even without loops:
   the region of the use itself. *)
Theorem assign_stale_refuted :
  exists g g' region use o t fuel r r1 r2, wf g /\ no_loop_variables g /\ g' = divert g use o /\
    get_assign fuel g region use fresh = Some (r, t) /\
    option_map fst (get_assign fuel g' region use (on_input_change g' use t)) = Some r1 /\
    option_map fst (get_assign fuel g' region use fresh) = Some r2 /\ allows r1 0 = false /\ allows r2 0 = true.
Proof.
  destruct (get_assign 10 three_gammas 3 2 fresh) as [[r t]|] eqn:E; [|vm_compute in E; discriminate].
  exists three_gammas, (divert three_gammas 2 5), 3, 2, 5, t, 10, r, [false; true], [true; true].
  split; [exact three_gammas_wf|]. split; [intros o; cases o; simpl; exact I|]. split; [reflexivity|]. split; [exact E|].
  vm_compute in E. injection E as <- <-. split; [vm_compute; reflexivity|]. split; [vm_compute; reflexivity|]. split; reflexivity.
Qed.

(* The hypotheses of check_fresh_partial: a check that says no, a change of
   the predicate that clears the caches, and a check that says yes. *)
Example fresh_after_change : exists t, history three_gammas (divert three_gammas 2 5) t /\
  option_map fst (check 10 three_gammas 1 6 fresh) = Some false /\
  option_map fst (check 10 (divert three_gammas 2 5) 2 6 t) = Some true /\
  option_map fst (check 10 (divert three_gammas 2 5) 2 5 t) = Some false.
Proof.
  destruct (check 10 three_gammas 1 6 fresh) as [[b t]|] eqn:E; [|vm_compute in E; discriminate].
  exists (on_input_change (divert three_gammas 2 5) 2 t). split.
  { apply history_divert. eapply history_check; [apply history_fresh|exact three_gammas_wf|exact E]. }
  vm_compute in E. injection E as <- <-. split; [reflexivity|]. split; vm_compute; reflexivity.
Qed.
