From stdpp Require Import base list gmap numbers relations.
From Verif.PredTrace Require Import Model Spec Proofs1 Proofs2.

(* Three gammas in one region.  The first runs region 1 (which hands on 0) or
   region 2 (which hands on 1); the second runs region 3 (which hands on 1) or
   region 4 (which hands on the output of the first gamma); the third runs
   region 5 or region 6 on the output of the second. *)
Definition three_gammas : graph := {|
  origin := fun i => match i with 0 => 0 | 1 => 1 | 2 => 2 | 3 => 5 | 4 => 3 | 5 => 4 | 6 => 6 | 7 => 7 | _ => 8 end;
  odefn := fun o => match o with
    | 2 => OGammaOut [4; 5]     (* the second gamma *)
    | 3 => OConst 1 2
    | 4 => OEntry 3
    | 5 => OGammaOut [6; 7]     (* the first gamma *)
    | 6 => OConst 0 2
    | 7 => OConst 1 2
    | _ => OOther end;
  iregion := fun i => match i with 4 => 3 | 5 => 4 | 6 => 1 | 7 => 2 | _ => 0 end;
  istruct := fun i => match i with 4 | 5 | 6 | 7 => true | _ => false end;
  ity := fun _ => Some 2;
  rpar := fun r => match r with
    | 1 => RGamma 0 0 0 | 2 => RGamma 0 0 1
    | 3 => RGamma 0 1 0 | 4 => RGamma 0 1 1
    | 5 => RGamma 0 2 0 | 6 => RGamma 0 2 1
    | _ => RTop end
|}.

Tactic Notation "cases" ident(n) := do 9 try (destruct n as [|n]).

Lemma three_gammas_wf : wf three_gammas.
Proof.
  split.
  - intros i rs res Ho Hin. cases i; simpl in Ho; try discriminate; injection Ho as <-;
      repeat (apply elem_of_cons in Hin as [->|Hin]; [split; [reflexivity|eexists; eexists; reflexivity]|]);
      apply elem_of_nil in Hin; destruct Hin.
  - intros i inp Ho. cases i; simpl in Ho; try discriminate; injection Ho as <-; eexists; eexists; reflexivity.
  - intros i inp post pre Ho. cases i; simpl in Ho; discriminate.
  - intros i inp post Ho. cases i; simpl in Ho; discriminate.
  - intros r outer pred index Ho. cases r; simpl in Ho; try discriminate; injection Ho as <- <- <-; (split; [reflexivity|]); exists 2; (split; [reflexivity|lia]).
  - intros i j n Hi _. exact Hi.
  - intros i alt nalts Ho. cases i; simpl in Ho; try discriminate; injection Ho as <- <-; (split; [lia|reflexivity]).
Qed.

Lemma three_gammas_acyclic : acyclic three_gammas.
Proof.
  split.
  - exists (fun i => match i with 2 => 4 | 5 => 3 | 3 => 2 | 6 | 7 => 1 | 4 => 1 | _ => 0 end).
    intros i j H. apply source_cases in H. cases i; simpl in H; try (destruct H; fail).
    + repeat (apply elem_of_cons in H as [->|H]; [lia|]). apply elem_of_nil in H. destruct H.
    + repeat (apply elem_of_cons in H as [->|H]; [lia|]). apply elem_of_nil in H. destruct H.
    + subst j. lia.
  - exists (fun r => match r with 0 => 0 | _ => 1 end). intros r. cases r; simpl; try lia; exact I.
Qed.

Definition three_val (o : nat) : nat := match o with 2 | 3 => 1 | _ => 0 end.
Definition three_entered (r : nat) : Prop := r ∈ [0; 1; 3; 6].

Lemma three_execution : execution three_gammas three_val three_entered.
Proof.
  assert (Hno : forall r, three_entered r -> r = 0 \/ r = 1 \/ r = 3 \/ r = 6).
  { intros r Hr. unfold three_entered in Hr. repeat (apply elem_of_cons in Hr as [->|Hr]; [lia|]). apply elem_of_nil in Hr. destruct Hr. }
  assert (Hin : forall r, r = 0 \/ r = 1 \/ r = 3 \/ r = 6 -> three_entered r).
  { intros r Hr. unfold three_entered. destruct Hr as [->|[->|[->| ->]]]; repeat (first [left|right]). }
  split.
  - intros r outer pred index Ho Hr. apply Hno in Hr. destruct Hr as [->|[->|[->| ->]]]; simpl in Ho; try discriminate;
      injection Ho as <- <- <-; (split; [apply Hin; left; reflexivity|reflexivity]).
  - intros r outer Ho Hr. apply Hno in Hr. destruct Hr as [->|[->|[->| ->]]]; simpl in Ho; discriminate.
  - intros i n _ Hn. injection Hn as <-. cases i; simpl; lia.
  - intros i alt nalts Hi Ho. cases i; simpl in Ho; try discriminate; injection Ho as <- <-; try reflexivity.
    exfalso. apply Hno in Hi. simpl in Hi. lia.
  - intros i rs Hi Ho. cases i; simpl in Ho; try discriminate; injection Ho as <-.
    + exists 4. split; [left|]. split; [apply Hin; simpl; lia|]. split; [reflexivity|].
      intros res' Hr He. apply elem_of_cons in Hr as [->|Hr]; [reflexivity|]. apply elem_of_list_singleton in Hr as ->.
      apply Hno in He. simpl in He. lia.
    + exists 6. split; [left|]. split; [apply Hin; simpl; lia|]. split; [reflexivity|].
      intros res' Hr He. apply elem_of_cons in Hr as [->|Hr]; [reflexivity|]. apply elem_of_list_singleton in Hr as ->.
      apply Hno in He. simpl in He. lia.
  - intros i inp Hi Ho. cases i; simpl in Ho; try discriminate. apply Hno in Hi. simpl in Hi. lia.
  - intros i inp post pre Hi Ho. cases i; simpl in Ho; discriminate.
  - intros i inp post Hi Ho _. cases i; simpl in Ho; discriminate.
Qed.

(* The documentation of CheckPredicatesSatisfiable says true exactly when the
   target is reachable after the origin.  Here one execution enters region 1
   and region 6, and the check says no. *)
Theorem check_reachable_refuted :
  exists g val ent org target fuel, wf g /\ acyclic g /\ execution g val ent /\ ent org /\ ent target /\
    option_map fst (check fuel g org target fresh) = Some false.
Proof.
  exists three_gammas, three_val, three_entered, 1, 6, 10.
  split; [exact three_gammas_wf|]. split; [exact three_gammas_acyclic|]. split; [exact three_execution|].
  split; [unfold three_entered; right; left|]. split; [unfold three_entered; repeat (first [left|right])|].
  vm_compute. reflexivity.
Qed.

(* ... and the two branches of the first gamma never run together, and the
   check says yes. *)
Theorem check_unreachable_refuted :
  exists g org target fuel, wf g /\ acyclic g /\ (forall val ent, execution g val ent -> ent org -> ~ ent target) /\
    option_map fst (check fuel g org target fresh) = Some true.
Proof.
  exists three_gammas, 1, 2, 10.
  split; [exact three_gammas_wf|]. split; [exact three_gammas_acyclic|]. split.
  - intros val ent Hex H1 H2.
    destruct (ex_gamma_region _ _ _ Hex 1 0 0 0 eq_refl H1) as [_ Ha].
    destruct (ex_gamma_region _ _ _ Hex 2 0 0 1 eq_refl H2) as [_ Hb]. congruence.
  - vm_compute. reflexivity.
Qed.

(* The hypotheses of check_reachable_partial: regions 3 and 6 are entered
   together, the definition goes straight into region 3, and the check says
   yes; for region 3 and region 5 it says no. *)
Example straight_down : out_down_to three_gammas 3 2 /\ three_entered 3 /\ three_entered 6 /\
  option_map fst (check 10 three_gammas 3 6 fresh) = Some true /\
  option_map fst (check 10 three_gammas 3 5 fresh) = Some false /\
  option_map fst (check 10 three_gammas 4 5 fresh) = Some true.
Proof.
  split.
  - apply od_down. eapply down_gamma with (rs := [4; 5]) (res := 4); [reflexivity|left|]. apply down_here; reflexivity.
  - split; [unfold three_entered; repeat (first [left|right])|]. split; [unfold three_entered; repeat (first [left|right])|].
    vm_compute. split; [reflexivity|]. split; reflexivity.
Qed.
