(** The aggregation of a control flow graph. *)
From stdpp Require Import tactics relations base list list_numbers fin_sets gmap fin_maps.
From Verif.Rvsdg Require Model Spec Wf.
From Verif.Construct Require Import Model Spec.
From Verif.Construct Require Properties.
From Verif.Cfg Require Model Spec.
From Verif.Aggregation Require Import Model Spec ProofsTop ProofsNormalize ProofsScc.

(** C59: whatever function finds the strongly connected components, and in whatever order: if the aggregation of a valid graph succeeds, then the tree is one
    in which branches and loop bodies end where the code after them expects it, and it executes exactly as the graph does *)
Theorem aggregate_correct find_sccs fuel g s T : finds_sccs find_sccs -> Cfg.Spec.valid g -> above g s -> no_wide_self_loop g ->
  aggregate_cfg find_sccs fuel g s = Some T ->
  tree_ok None T /\
  forall (V : Type) (ctl : V -> option nat) sem truth (σ σ' : nat -> V), exec ctl sem truth None T σ σ' <-> Cfg.Spec.executes ctl sem truth g σ σ'.
Proof. apply aggregate_cfg_correct. Qed.

(** C60: normalization: no linear node has a linear child, and the tree executes as before *)
Theorem normalize_correct t : tree_ok None t -> normal (normalize t) /\ tree_ok None (normalize t) /\
  forall (V : Type) (ctl : V -> option nat) sem truth (σ σ' : nat -> V), exec ctl sem truth None (normalize t) σ σ' <-> exec ctl sem truth None t σ σ'.
Proof. intros H. split; [apply normalize_normal|]. split; [by apply normalize_ok|]. intros V ctl sem truth σ σ'. by apply normalize_exec. Qed.
Theorem normalize_idempotent t : normalize (normalize t) = normalize t.
Proof.
  assert (H : forall t, normal t -> normalize t = t); [|apply H, normalize_normal]. clear. intros t. induction t as [l|l IH|l IH|b IH] using Construct.ProofsSets.tree_ind'; [done| | |].
  - intros H. cbn. f_equal. cbn [normal] in H. induction IH as [|t l Ht _ IHl]; [done|]. destruct H as ((H1 & H2) & H3). change ((t :: l) ≫= (fun c => parts (normalize c))) with (parts (normalize t) ++ (l ≫= (fun c => parts (normalize c)))).
    rewrite (IHl H3), (Ht H2). destruct t; [done|by edestruct H1|done|done].
  - intros H. cbn. f_equal. cbn [normal] in H. induction IH as [|t l Ht _ IHl]; [done|]. destruct H as (H2 & H3). cbn. by rewrite (IHl H3), (Ht H2).
  - intros H. cbn. f_equal. by apply IH.
Qed.

(** C61: from the control flow graph to the lambda node. The function that the frontend converts: the arguments and results, and the children of the root of the normalized tree *)
Definition function_of (args results : list nat) (T : tree) : function := Function args results (parts (normalize T)).
(** if the graph, started with the arguments xs, arrives at its exit with the values rs in the result variables, then the lambda node returns rs and nothing else *)
Theorem construct_correct find_sccs fuel g s T order undef match1 (Horder : forall s, Permutation (order s) (elements s))
    {V : Type} (ctl : V -> option nat) (content : V -> V) (sem : nat -> list V -> option (list V)) (truth : V -> bool) (addr imp : nat -> V)
    args results imports M σ0 σ' xs :
  finds_sccs find_sccs -> Cfg.Spec.valid g -> above g s -> no_wide_self_loop g -> aggregate_cfg find_sccs fuel g s = Some T ->
  convert_module order undef match1 (function_of args results T) imports = Some M ->
  (forall v, exists u, sem (undef v) [] = Some [u]) -> (forall v, exists w, sem match1 [v] = Some [w] /\ ctl w = Some (if truth v then 1 else 0)) ->
  NoDup args -> NoDup imports -> length xs = length args ->
  (forall i v, imports !! i = Some v -> σ0 v = imp i) -> (forall v, v ∉ imports -> sem (undef v) [] = Some [σ0 v]) ->
  Cfg.Spec.executes ctl sem truth g (upd_all args xs σ0) σ' ->
  Rvsdg.Wf.wf M /\
  exists o id largs lres, Rvsdg.Model.rres M = [o] /\ (o, Rvsdg.Spec.VLambda id largs lres) ∈ Rvsdg.Spec.defs M /\ length largs = length xs /\
    forall rs, Forall2 (Rvsdg.Spec.ev ctl content sem addr imp M (Rvsdg.Spec.bind (zip largs xs))) lres rs <-> rs = map σ' results.
Proof.
  intros Hf Hg Ha Hw HT HM Hu Hm Hargs Himp Hxs Hi Hun He. destruct (aggregate_correct find_sccs fuel g s T Hf Hg Ha Hw HT) as (Hok & Hex).
  split; [by eapply Construct.Properties.convert_wf|].
  eapply (Construct.Properties.convert_correct order undef match1 Horder ctl content sem truth addr imp Hu Hm (function_of args results T) imports M σ0 xs (map σ' results)); [done..|].
  split; [done|]. exists σ'. split; [|done]. cbn [function_of fbody fargs]. apply parts_exec; [by apply normalize_ok|]. apply normalize_exec; [done|]. by apply Hex.
Qed.
(** and the conversion does not fail, under the condition of C53 *)
Theorem construct_total_partial find_sccs fuel g s T order undef match1 (Horder : forall s, Permutation (order s) (elements s)) args results imports :
  finds_sccs find_sccs -> Cfg.Spec.valid g -> above g s -> no_wide_self_loop g -> aggregate_cfg find_sccs fuel g s = Some T -> NoDup args ->
  fold_right and True (map no_gap (parts (normalize T))) -> exists M, convert_module order undef match1 (function_of args results T) imports = Some M.
Proof.
  intros Hf Hg Ha Hw HT Hargs Hgap. destruct (aggregate_correct find_sccs fuel g s T Hf Hg Ha Hw HT) as (Hok & _). apply Construct.Properties.convert_total_partial; [done| |done].
  split; [done|]. cbn. by apply parts_ok, normalize_ok.
Qed.

(** a graph that meets the hypotheses: a loop (3 to 8) with a loop (4) and a branch (5 to 8) inside *)
Definition tac1 (x : tac) : list Cfg.Model.instr := [Cfg.Model.Tac x].
Definition ex_cfg : Cfg.Model.cfg := Cfg.Model.Cfg
  (list_to_map [(2, Cfg.Model.Block (tac1 (Assign 1 0)) [3]);
                (3, Cfg.Model.Block [] [4]);
                (4, Cfg.Model.Block (Cfg.Model.Tac (Op 0 [0] [0]) :: tac1 (BranchOn 2)) [5; 4]);
                (5, Cfg.Model.Block (tac1 (BranchOn 3)) [6; 7]);
                (6, Cfg.Model.Block (tac1 (Assign 1 2)) [8]);
                (7, Cfg.Model.Block [] [8]);
                (8, Cfg.Model.Block (tac1 (BranchOn 4)) [1; 3])]) 2.
Lemma ex_lookup n b : Cfg.Model.blocks ex_cfg !! n = Some b ->
  (n, b) ∈ [(2, Cfg.Model.Block (tac1 (Assign 1 0)) [3]); (3, Cfg.Model.Block [] [4]); (4, Cfg.Model.Block (Cfg.Model.Tac (Op 0 [0] [0]) :: tac1 (BranchOn 2)) [5; 4]);
    (5, Cfg.Model.Block (tac1 (BranchOn 3)) [6; 7]); (6, Cfg.Model.Block (tac1 (Assign 1 2)) [8]); (7, Cfg.Model.Block [] [8]); (8, Cfg.Model.Block (tac1 (BranchOn 4)) [1; 3])].
Proof. intros H. apply elem_of_list_to_map_2 in H. exact H. Qed.
Ltac ex_cases H := apply ex_lookup in H; repeat (apply elem_of_cons in H as [H|H]; [injection H as -> ->|]); [..|by apply elem_of_nil in H].
Example ex_valid : Cfg.Spec.valid ex_cfg /\ above ex_cfg 9 /\ no_wide_self_loop ex_cfg.
Proof.
  split; [|split].
  - split; [done| |].
    + intros n m [(-> & ->)|(b & Hb & Hm)]; [right; by eexists|]. ex_cases Hb; cbn in Hm; repeat (apply elem_of_cons in Hm as [->|Hm]; [first [by left|right; by eexists]|]); by apply elem_of_nil in Hm.
    + intros n b Hb. ex_cases Hb; (split; [done|]); (split; [first [by intros []|intros _; eexists; reflexivity]|]); (split; [eexists; reflexivity|]); intros r ops Hin; by apply elem_of_nil in Hin.
  - split; [change (1 < 9); lia|]. intros n (b & Hb). ex_cases Hb; lia.
  - intros n b Hb Hn. ex_cases Hb; cbn; lia.
Qed.
Example ex_aggregate : exists fuel T, aggregate_cfg some_find_sccs fuel ex_cfg 9 = Some T /\ normalize T =
  Linear [Block []; Block [Assign 1 0];
          Loop (Linear [Block []; Loop (Block [Op 0 [0] [0]; BranchOn 2]); Block [BranchOn 3]; Branch [Block [Assign 1 2]; Block []]; Block [BranchOn 4]]); Block []].
Proof. exists 30. eexists. split; vm_compute; reflexivity. Qed.

(** the function with that body, the argument 0 and the results 0 and 1: its lambda node returns 5 and 0 for the argument 5 *)
Definition ex_sem (op : nat) (vs : list nat) : option (list nat) :=
  match op, vs with 0, [x] => Some [x] | 1, [x] => Some [if decide (x = 0) then 0 else 1] | S (S _), [] => Some [0] | _, _ => None end.
Definition ex_truth (x : nat) : bool := bool_decide (x <> 0).
Example ex_construct : exists M o id largs lres, Rvsdg.Wf.wf M /\ Rvsdg.Model.rres M = [o] /\ (o, Rvsdg.Spec.VLambda id largs lres) ∈ Rvsdg.Spec.defs M /\ length largs = 1 /\
  forall rs, Forall2 (Rvsdg.Spec.ev Some (fun x => x) ex_sem (fun x => x) (fun _ => 0) M (Rvsdg.Spec.bind (zip largs [5]))) lres rs <-> rs = [5; 0].
Proof.
  destruct ex_valid as (H1 & H2 & H3). assert (HM : exists fuel T M, aggregate_cfg some_find_sccs fuel ex_cfg 9 = Some T /\ convert_module elements (fun v => 10 + v) 1 (function_of [0] [0; 1] T) [] = Some M).
  { exists 30. eexists. eexists. split; vm_compute; reflexivity. }
  destruct HM as (fuel & T & M & HT & HM). exists M.
  assert (Hex : exists σ', Cfg.Spec.executes Some ex_sem ex_truth ex_cfg (upd_all [0] [5] (fun _ => 0)) σ' /\ map σ' [0; 1] = [5; 0]).
  { eexists. split.
    - eapply Cfg.Spec.runs_block; [reflexivity|exists [], [Assign 1 0]; split; [done|]; split; [done|]; eexists; split; reflexivity|reflexivity|].
      eapply Cfg.Spec.runs_block; [reflexivity|exists [], []; split; [done|]; split; [done|]; reflexivity|reflexivity|].
      eapply Cfg.Spec.runs_block; [reflexivity|exists [], [Op 0 [0] [0]; BranchOn 2]; split; [done|]; split; [done|]; eexists; split; [eexists; split; [reflexivity|split; reflexivity]|eexists; split; reflexivity]|exists 2, 0; done|].
      eapply Cfg.Spec.runs_block; [reflexivity|exists [], [BranchOn 3]; split; [done|]; split; [done|]; eexists; split; reflexivity|exists 3, 0; done|].
      eapply Cfg.Spec.runs_block; [reflexivity|exists [], [Assign 1 2]; split; [done|]; split; [done|]; eexists; split; reflexivity|reflexivity|].
      eapply Cfg.Spec.runs_block; [reflexivity|exists [], [BranchOn 4]; split; [done|]; split; [done|]; eexists; split; reflexivity|exists 4, 0; done|]. constructor.
    - reflexivity. }
  destruct Hex as (σ' & Hex & Hres).
  destruct (construct_correct some_find_sccs fuel ex_cfg 9 T elements (fun v => 10 + v) 1 ltac:(done) Some (fun x => x) ex_sem ex_truth (fun x => x) (fun _ => 0) [0] [0; 1] [] M (fun _ => 0) σ' [5]
    some_finds_sccs H1 H2 H3 HT HM ltac:(intros v; by eexists)) as (Hwf & o & i & la & lr & G1 & G2 & G3 & G4).
  - intros v. eexists. split; [reflexivity|]. unfold ex_truth. destruct v; done.
  - apply NoDup_singleton.
  - constructor.
  - done.
  - intros i v Hi. by rewrite lookup_nil in Hi.
  - done.
  - exact Hex.
  - exists o, i, la, lr. rewrite Hres in G4. done.
Qed.

(** C59 fails without the condition on blocks with more than two successors: 0 -> 2 -> 3, 3 -> exit, 2 or itself. The block becomes the body of a loop inside of the loop
    with the block 2, but it decides about both *)
Definition wide_cfg : Cfg.Model.cfg := Cfg.Model.Cfg (list_to_map [(2, Cfg.Model.Block [] [3]); (3, Cfg.Model.Block (tac1 (BranchOn 0)) [1; 2; 3])]) 2.
Theorem aggregate_wide_refuted : Cfg.Spec.valid wide_cfg /\ above wide_cfg 4 /\ exists fuel T, aggregate_cfg some_find_sccs fuel wide_cfg 4 = Some T /\ ~ tree_ok None T /\
  Cfg.Spec.executes Some (fun _ _ => None) (fun _ => true) wide_cfg (fun _ => 0) (fun _ => 0) /\ forall σ σ', ~ exec Some (fun _ _ => None) (fun _ => true) None T σ σ'.
Proof.
  assert (Hl : forall n b, Cfg.Model.blocks wide_cfg !! n = Some b -> (n, b) ∈ [(2, Cfg.Model.Block [] [3]); (3, Cfg.Model.Block (tac1 (BranchOn 0)) [1; 2; 3])]).
  { intros n b H. apply elem_of_list_to_map_2 in H. exact H. }
  split; [|split].
  - split; [done| |].
    + intros n m [(-> & ->)|(b & Hb%Hl & Hm)]; [right; by eexists|]. repeat (apply elem_of_cons in Hb as [[= -> ->]|Hb]); [| |by apply elem_of_nil in Hb]; cbn in Hm;
        repeat (apply elem_of_cons in Hm as [->|Hm]; [first [by left|right; by eexists]|]); by apply elem_of_nil in Hm.
    + intros n b Hb%Hl. repeat (apply elem_of_cons in Hb as [[= -> ->]|Hb]); [| |by apply elem_of_nil in Hb]; (split; [done|]); (split; [first [by intros []|intros _; eexists; reflexivity]|]); (split; [eexists; reflexivity|]); intros r ops Hin; by apply elem_of_nil in Hin.
  - split; [change (1 < 4); lia|]. intros n (b & Hb%Hl). repeat (apply elem_of_cons in Hb as [[= -> ->]|Hb]); [lia|lia|by apply elem_of_nil in Hb].
  - exists 30. eexists. split; [vm_compute; reflexivity|]. split; [|split].
    + cbn. intros H. decompose [and ex] H. done.
    + eapply Cfg.Spec.runs_block; [reflexivity|exists [], []; done|reflexivity|]. eapply Cfg.Spec.runs_block; [reflexivity|exists [], [BranchOn 0]; split; [done|]; split; [done|]; cbn; eauto|exists 0, 0; done|]. constructor.
    + cbn. intros σ σ' H. decompose [and ex] H. done.
Qed.
