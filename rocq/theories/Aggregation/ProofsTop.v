(** A whole control flow graph. *)
From stdpp Require Import tactics relations base list list_numbers fin_sets gmap fin_maps.
From Verif.Construct Require Import Model Spec.
From Verif.Cfg Require Model Spec.
From Verif.Aggregation Require Import Model Spec ProofsRun ProofsInv ProofsStep ProofsAcyclic ProofsLoops ProofsAggregate.
Notation entry := Cfg.Model.entry. Notation exit := Cfg.Model.exit. Notation blocks := Cfg.Model.blocks. Notation start := Cfg.Model.start. Notation succ := Cfg.Model.succ. Notation code := Cfg.Model.code.
Notation plain := Cfg.Spec.plain.

Lemma initial_spec g G : initial g = Some G ->
  (forall n, G !! n = if decide (n = entry) then Some (Node (Block []) [start g]) else if decide (n = exit) then Some (Node (Block []) []) else
     b ← blocks g !! n; ts ← plain (code b); Some (Node (Block ts) (succ b))) /\ forall n b, blocks g !! n = Some b -> is_Some (plain (code b)).
Proof.
  unfold initial. set (f := fun p : nat * Cfg.Model.block => _). destruct (mapM f (map_to_list (blocks g))) as [bs|] eqn:E; [|done]. cbn. intros [= <-].
  apply mapM_Some in E. assert (Hf : forall p q, f p = Some q <-> exists ts, plain (code p.2) = Some ts /\ q = (p.1, Node (Block ts) (succ p.2))).
  { intros p q. unfold f. change (mapM _ (code p.2)) with (plain (code p.2)). destruct (plain (code p.2)) as [ts|]; cbn; [|by split; [|intros (? & ? & _)]]. split; [intros [= <-]; eauto|by intros (ts' & [= <-] & ->)]. }
  assert (Hall : forall n b, blocks g !! n = Some b -> exists ts, plain (code b) = Some ts /\ (n, Node (Block ts) (succ b)) ∈ bs).
  { intros n b Hb. apply elem_of_map_to_list, elem_of_list_lookup in Hb as (i & Hi). destruct (Forall2_lookup_l _ _ _ _ _ E Hi) as (q & Hq & Hfq). cbn in Hfq. apply Hf in Hfq as (ts & Hts & ->).
    exists ts. split; [done|]. by eapply elem_of_list_lookup_2. }
  assert (Hkeys : fst <$> bs = fst <$> map_to_list (blocks g)).
  { clear -E Hf. induction E as [|p q l bs H _ IH]; [done|]. cbn. f_equal; [|exact IH]. apply Hf in H as (ts & _ & ->). done. }
  assert (Hnd : NoDup (fst <$> bs)) by (rewrite Hkeys; apply NoDup_fst_map_to_list). split.
  - intros n. destruct (decide (n = entry)) as [->|H1]; [apply lookup_insert|]. rewrite lookup_insert_ne by done. destruct (decide (n = exit)) as [->|H2]; [apply lookup_insert|]. rewrite lookup_insert_ne by done.
    destruct (blocks g !! n) as [b|] eqn:Eb; cbn.
    + destruct (Hall n b Eb) as (ts & Hts & Hin). rewrite Hts. cbn. by apply elem_of_list_to_map.
    + apply not_elem_of_list_to_map. rewrite Hkeys. intros ([k b] & -> & Hin)%elem_of_list_fmap. apply elem_of_map_to_list in Hin. cbn in Eb. congruence.
  - intros n b Hb. destruct (Hall n b Hb) as (ts & Hts & _). by eexists.
Qed.
Lemma plain_cons x l ts : plain (x :: l) = Some ts -> exists y ts', x = Cfg.Model.Tac y /\ plain l = Some ts' /\ ts = y :: ts'.
Proof. unfold plain. cbn. destruct x as [r ops|y]; cbn; [done|]. destruct (mapM _ l) as [ts'|] eqn:E; cbn; [|done]. intros [= <-]. eauto. Qed.
Lemma plain_phis l ts : plain l = Some ts -> Cfg.Spec.split_phis l = ([], l).
Proof. destruct l as [|x l]; [done|]. intros (y & ts' & -> & _)%plain_cons. done. Qed.
Lemma plain_last l ts p : plain l = Some ts -> last l = Some (Cfg.Model.Tac (BranchOn p)) <-> ends_with (Block ts) = Some p.
Proof.
  revert ts. induction l as [|x l IH]; intros ts; [by intros [= <-]|]. intros (y & ts' & -> & H & ->)%plain_cons. cbn. destruct l as [|x' l].
  - injection H as <-. cbn. destruct y; split; intros [= ?]; congruence.
  - pose proof (IH _ H) as Hi. apply plain_cons in H as (y' & ts'' & -> & H & ->). exact Hi.
Qed.
Section Runs.
  Context {V : Type} (ctl : V -> option nat) (sem : nat -> list V -> option (list V)) (truth : V -> bool).
  Context (g : Cfg.Model.cfg) (G : graph) (Hg : Cfg.Spec.valid g) (HG : initial g = Some G).
  Lemma exec_plain prev l ts σ σ' : plain l = Some ts -> Cfg.Spec.exec_code sem truth prev l σ σ' <-> exec_block sem truth ts σ σ'.
  Proof using.
    intros H. unfold Cfg.Spec.exec_code. rewrite (plain_phis l ts H). cbn [fst snd]. rewrite H. cbn. split; [intros (vs & ts' & [= <-] & [= <-] & He); done|]. intros He. by exists [], ts.
  Qed.
  Lemma goes_goto b ts σ m : plain (code b) = Some ts -> Cfg.Spec.goes ctl b σ m <-> goto ctl (Block ts) (succ b) σ m.
  Proof using.
    intros H. unfold Cfg.Spec.goes, goto. destruct (succ b) as [|s1 [|s2 o]]; [|done|]; split; intros (p & i & H1 & H2 & H3); exists p, i; (split; [by apply (plain_last _ _ _ H)|done]).
  Qed.
  Lemma look_initial n : look G ∅ n = (fun nd => (label nd, outs nd)) <$> G !! n.
  Proof using. unfold look. destruct (G !! n); [|done]. cbn. by rewrite lookup_empty. Qed.
  Lemma block_facts n b : blocks g !! n = Some b -> n <> entry /\ n <> exit /\ exists ts, plain (code b) = Some ts /\ look G ∅ n = Some (Block ts, succ b).
  Proof using Hg HG.
    intros Hb. destruct (Cfg.Spec.valid_ends _ Hg) as (H1 & H2). assert (Hne : n <> entry) by (intros ->; congruence). assert (Hnx : n <> exit) by (intros ->; congruence).
    split; [done|]. split; [done|]. destruct (initial_spec _ _ HG) as (HL & Hp). destruct (Hp n b Hb) as (ts & Hts). exists ts. split; [done|]. rewrite look_initial, HL.
    rewrite !decide_False by done. rewrite Hb. cbn. by rewrite Hts.
  Qed.
  Lemma runs_run prev n σ σ' : Cfg.Spec.runs ctl sem truth g prev n σ σ' -> run ctl sem truth (look G ∅) exit n σ σ'.
  Proof using Hg HG.
    induction 1 as [prev σ|prev n b σ σ1 m σ' Hb He Hgo _ IH].
    - eapply run_stop; [rewrite look_initial, (proj1 (initial_spec _ _ HG)); done|done].
    - destruct (block_facts n b Hb) as (Hne & Hnx & ts & Hts & HL). eapply run_go; [done|exact HL|cbn; by apply (exec_plain prev _ _ _ _ Hts)|by apply (goes_goto _ _ _ _ Hts)|done].
  Qed.
  Lemma edge_entry n : Cfg.Spec.edge g n entry -> False.
  Proof using Hg. intros [?|(b & Hb)]%(Cfg.Spec.valid_edges _ Hg); [done|]. destruct (Cfg.Spec.valid_ends _ Hg) as (H1 & _). unfold entry in *. congruence. Qed.
  Lemma run_runs n σ σ' : run ctl sem truth (look G ∅) exit n σ σ' -> (n <> entry -> forall prev, Cfg.Spec.runs ctl sem truth g prev n σ σ') /\ (n = entry -> Cfg.Spec.executes ctl sem truth g σ σ').
  Proof using Hg HG.
    destruct (initial_spec _ _ HG) as (HL0 & Hp0).
    induction 1 as [t o σ σ' HL He|n t o σ σ1 m σ' Hn HL He Hgo _ (IH & _)].
    - split; [|done]. intros _ prev. rewrite look_initial, HL0 in HL. injection HL as <- <-. cbn in He. subst σ'. constructor.
    - split.
      + intros Hne prev. rewrite look_initial, HL0 in HL. rewrite !decide_False in HL by done. destruct (blocks g !! n) as [b|] eqn:Eb; [|done]. cbn in HL.
        destruct (plain (code b)) as [ts|] eqn:Ets; [|done]. injection HL as <- <-. cbn in He. eapply Cfg.Spec.runs_block; [exact Eb|by apply (exec_plain prev _ _ _ _ Ets)|by apply (goes_goto _ _ _ _ Ets)|].
        apply IH. intros ->. apply goto_in in Hgo. apply (edge_entry n). right. eauto.
      + intros ->. rewrite look_initial, HL0 in HL. cbn in HL. injection HL as <- <-. cbn in He, Hgo. subst σ1 m. apply IH. intros Heq. apply (edge_entry entry). left. by rewrite Heq.
  Qed.
  Lemma run_executes σ σ' : run ctl sem truth (look G ∅) exit entry σ σ' <-> Cfg.Spec.executes ctl sem truth g σ σ'.
  Proof using Hg HG.
    split; [intros H; by apply run_runs in H as (_ & H); apply H|]. intros H. eapply run_go; [done| | | |by eapply runs_run].
    - rewrite look_initial, (proj1 (initial_spec _ _ HG)). reflexivity.
    - reflexivity.
    - reflexivity.
  Qed.
End Runs.
Lemma initial_inv g G s : Cfg.Spec.valid g -> initial g = Some G -> above g s -> inv Top G s entry exit (dom G).
Proof.
  intros Hg HG (Hs1 & Hs2). destruct (initial_spec _ _ HG) as (HL & Hp). destruct (Cfg.Spec.valid_ends _ Hg) as (He & Hx).
  assert (Hedge : forall p q, q ∈ outs_of G p -> Cfg.Spec.edge g p q).
  { intros p q Hq. unfold outs_of in Hq. rewrite HL in Hq. destruct (decide (p = entry)) as [->|H1]; [cbn in Hq; apply elem_of_list_singleton in Hq as ->; by left|].
    destruct (decide (p = exit)) as [->|H2]; [cbn in Hq; by apply elem_of_nil in Hq|]. destruct (blocks g !! p) as [b|] eqn:Eb; [|cbn in Hq; by apply elem_of_nil in Hq].
    cbn in Hq. destruct (plain (code b)) as [ts|]; [|cbn in Hq; by apply elem_of_nil in Hq]. cbn in Hq. right. eauto. }
  assert (Hblock : forall n b, blocks g !! n = Some b -> is_Some (G !! n)).
  { intros n b Hb. rewrite HL. rewrite !decide_False by (intros ->; congruence). rewrite Hb. cbn. destruct (Hp n b Hb) as (ts & ->). by eexists. }
  assert (Hsink : forall p q, Cfg.Spec.edge g p q -> q ∈ dom G /\ q < s /\ q <> entry).
  { intros p q Hq. pose proof (edge_entry g Hg p) as Hne. apply (Cfg.Spec.valid_edges _ Hg) in Hq as Hq'. rewrite elem_of_dom. destruct Hq' as [->|Hb].
    - split; [rewrite HL; by eexists|]. split; [done|done].
    - split; [destruct Hb as (b & Hb); by eapply Hblock|]. split; [by apply Hs2|]. by intros ->. }
  split.
  - intros n nd Hn. split.
    + rewrite HL in Hn. destruct (decide (n = entry)) as [->|H1]; [change (entry) with 0; clear -Hs1; change exit with 1 in Hs1; lia|]. destruct (decide (n = exit)) as [->|H2]; [done|]. apply Hs2.
      destruct (blocks g !! n); [by eexists|done].
    + intros m Hm. apply (Hsink n m), Hedge. by rewrite (outs_of_some _ _ _ Hn).
  - intros n Hn. by apply elem_of_dom.
  - apply elem_of_dom. rewrite HL. by eexists.
  - apply elem_of_dom. rewrite HL. by eexists.
  - intros p q Hq Hpn. exfalso. apply Hpn, elem_of_dom. apply elem_outs in Hq as (nd & Hnd & _). by eexists.
  - intros p q Hq _ Hqn. exfalso. by apply Hqn, (Hsink p q), Hedge.
  - intros p q Hq _. by apply (Hsink p q), Hedge.
  - unfold outs_of. by rewrite HL.
  - intros n t o. cbn [K_of]. rewrite look_initial, HL. destruct (decide (n = entry)) as [->|H1]; [intros [= <- <-]; split; [done|cbn; lia]|].
    destruct (decide (n = exit)) as [->|H2]; [intros [= <- <-]; split; [done|cbn; lia]|]. destruct (blocks g !! n) as [b|] eqn:Eb; [|done]. cbn. destruct (plain (code b)) as [ts|] eqn:Ets; [|done]. intros [= <- <-].
    split; [done|]. intros Hlen. destruct (Cfg.Spec.valid_blocks _ Hg n b Eb) as (_ & Hbr & _). destruct Hbr as (p & Hlast); [lia|]. exists p. by apply (plain_last _ _ _ Ets).
Qed.
Lemma initial_selfs g G : initial g = Some G -> no_wide_self_loop g -> selfs G (dom G).
Proof.
  intros HG Hw n _. destruct (initial_spec _ _ HG) as (HL & _). unfold outs_of. rewrite HL. destruct (decide (n = entry)); [cbn; lia|]. destruct (decide (n = exit)); [cbn; lia|].
  destruct (blocks g !! n) as [b|] eqn:Eb; [|cbn; lia]. cbn. destruct (plain (code b)); cbn; [|lia]. by apply Hw.
Qed.
Lemma aggregate_cfg_correct find_sccs fuel g s T : finds_sccs find_sccs -> Cfg.Spec.valid g -> above g s -> no_wide_self_loop g -> aggregate_cfg find_sccs fuel g s = Some T ->
  tree_ok None T /\ forall (V : Type) (ctl : V -> option nat) sem truth (σ σ' : nat -> V), exec ctl sem truth None T σ σ' <-> Cfg.Spec.executes ctl sem truth g σ σ'.
Proof.
  intros Hf Hg Ha Hw. unfold aggregate_cfg. destruct (initial g) as [G|] eqn:EG; [|done]. cbn. destruct (aggregate find_sccs fuel G s entry exit) as [[[G' c'] n]|] eqn:Ea; [|done]. cbn.
  destruct (G' !! n) as [nd|] eqn:En; [|done]. intros [= <-].
  destruct (proj2 (aggregate_both find_sccs Hf fuel) G s entry exit (dom G) G' c' n (initial_inv _ _ _ Hg EG Ha) (initial_selfs _ _ EG Hw) Ea) as (R' & I' & S').
  assert (HL : look G' ∅ n = Some (label nd, outs nd)) by (rewrite look_initial, En; done). split.
  - by destruct (inv_good _ _ _ _ _ _ I' n (label nd) (outs nd)).
  - intros V ctl sem truth σ σ'. rewrite <-(run_executes ctl sem truth g G Hg EG). specialize (S' V ctl sem truth σ σ'). unfold behave in S'. cbn [K_of X_of E_of] in S'. rewrite S'. clear S'. split.
    + intros H. by eapply run_stop.
    + intros H. inversion H as [t o σ1 σ1' H1 H2|]; subst; [|done]. rewrite HL in H1. by injection H1 as <- <-.
Qed.
