From stdpp Require Import base list.
From Coq Require Import Lia.
From Verif.ThetaGamma Require Import Model Spec.

Section Redirect.
  Context {value : Type} (body : (nat -> value) -> (nat -> value) -> (nat -> value) -> nat -> bool -> Prop).
  Context (g : gamma) (rep ext : nat) (vars : list loop_var).
  Context (Hexec : executes body g) (Huses : uses body g vars) (Hroles : roles body rep ext) (Hposts : posts_valid vars).

  (* a variable before and after: only the outputs of the gamma node are
     replaced, by origins of its entry variables *)
  Definition diverted (v v' : loop_var) : Prop :=
    out_used v' = out_used v /\ pre_used v' = pre_used v /\
    (post v' = post v \/ (exists k, post v = GammaOut k) /\ post v' ∈ entries g).

  Lemma diverted_refl v : diverted v v.
  Proof. split; [reflexivity|]. split; [reflexivity|]. left. reflexivity. Qed.

  Lemma divert_diverted b k v : post v = GammaOut k -> diverted v (divert g b k v).
  Proof.
    intros Hk. unfold divert. destruct (branches g !! b) as [rs|]; [|apply diverted_refl].
    destruct (rs !! k) as [[j| |o]|]; try apply diverted_refl.
    destruct (entries g !! j) as [o|] eqn:E; [|apply diverted_refl].
    split; [reflexivity|]. split; [reflexivity|]. right. split; [exists k; exact Hk|]. eapply elem_of_list_lookup_2. exact E.
  Qed.

  Lemma redirect_var_diverted cur i v : diverted v (redirect_var g rep ext cur i v).
  Proof.
    unfold redirect_var. destruct (negb (out_used v) && pre_dead cur i v); [apply diverted_refl|].
    destruct (post v) as [j|k|o] eqn:E; try apply diverted_refl.
    destruct (negb (out_used v)); [apply divert_diverted; exact E|].
    destruct (pre_dead cur i v); [apply divert_diverted; exact E|apply diverted_refl].
  Qed.

  Lemma pre_dead_same cur i v : Forall2 diverted vars cur -> vars !! i = Some v -> pre_dead cur i v = pre_dead vars i v.
  Proof.
    intros Hf Hi. unfold pre_dead. destruct (pre_used v) eqn:Eu; [reflexivity|]. cbn [negb andb].
    assert (Hno : ~ Pre i ∈ entries g).
    { intros Hin. destruct (proj2 Huses i Hin) as (v0 & Hv0 & Hu). rewrite Hi in Hv0. injection Hv0 as <-. congruence. }
    assert (Hgen : forall l l', Forall2 diverted l l' ->
       forallb (fun w => match post w with Pre j => negb (j =? i) | _ => true end) l' = forallb (fun w => match post w with Pre j => negb (j =? i) | _ => true end) l).
    { induction 1 as [|w w' l l' (H1 & H2 & H3) Hl IH]; [reflexivity|]. cbn [forallb]. rewrite IH. f_equal.
      destruct H3 as [->|[[k Hk] Hin]]; [reflexivity|]. rewrite Hk. destruct (post w') as [j|k'|o]; try reflexivity.
      destruct (Nat.eqb_spec j i) as [->|Hne]; [contradiction|reflexivity]. }
    apply Hgen. exact Hf.
  Qed.

  Lemma redirect_from_ok n : forall i cur, Forall2 diverted vars cur -> i + n = length vars ->
    (forall j v, i <= j -> vars !! j = Some v -> cur !! j = Some v) ->
    (forall j v, j < i -> vars !! j = Some v -> cur !! j = Some (redirect_var g rep ext vars j v)) ->
    forall j v, vars !! j = Some v -> redirect_from g rep ext i n cur !! j = Some (redirect_var g rep ext vars j v).
  Proof.
    induction n as [|n IH]; intros i cur Hf Hlen Hge Hlt j v Hj; cbn [redirect_from].
    - apply Hlt; [|exact Hj]. apply lookup_lt_Some in Hj. lia.
    - destruct (lookup_lt_is_Some_2 vars i ltac:(lia)) as [w Hw].
      assert (Hcw : cur !! i = Some w) by (apply Hge; [lia|exact Hw]).
      assert (Hsame : redirect_var g rep ext cur i w = redirect_var g rep ext vars i w).
      { unfold redirect_var. rewrite (pre_dead_same cur i w Hf Hw). reflexivity. }
      apply IH; [| |intros j' v' Hle Hj'|intros j' v' Hl Hj'|exact Hj]; [|lia| |].
      + apply Forall2_same_length_lookup_2.
        { rewrite alter_length. exact (Forall2_length _ _ _ Hf). }
        intros j' x y Hx Hy. destruct (decide (i = j')) as [<-|Hne].
        * rewrite list_lookup_alter, Hcw in Hy. cbn in Hy. injection Hy as <-. rewrite Hw in Hx. injection Hx as <-. apply redirect_var_diverted.
        * rewrite list_lookup_alter_ne in Hy by exact Hne. eapply Forall2_lookup_lr; eassumption.
      + rewrite list_lookup_alter_ne by lia. apply Hge; [lia|exact Hj'].
      + destruct (decide (i = j')) as [<-|Hne].
        * rewrite list_lookup_alter, Hcw. cbn. rewrite Hw in Hj'. injection Hj' as <-. rewrite Hsame. reflexivity.
        * rewrite list_lookup_alter_ne by exact Hne. apply Hlt; [lia|exact Hj'].
  Qed.

  Lemma redirect_lookup j v : vars !! j = Some v -> redirect g rep ext vars !! j = Some (redirect_var g rep ext vars j v).
  Proof.
    apply redirect_from_ok; [|lia|intros j' v' _ Hj'; exact Hj'|intros; lia].
    apply Forall2_same_length_lookup_2; [reflexivity|]. intros i x y Hx Hy. rewrite Hx in Hy. injection Hy as <-. apply diverted_refl.
  Qed.
  Lemma redirect_lookup_none j : vars !! j = None -> redirect g rep ext vars !! j = None.
  Proof.
    intros H. apply lookup_ge_None in H. apply lookup_ge_None. unfold redirect.
    assert (Hl : forall n i cur, length (redirect_from g rep ext i n cur) = length cur).
    { induction n as [|n IH]; intros i cur; cbn [redirect_from]; [reflexivity|]. rewrite IH, alter_length. reflexivity. }
    rewrite Hl. exact H.
  Qed.

  (* the values of the loop variables whose pre value is not dead agree *)
  Definition agree (pre pre' : nat -> value) : Prop := forall i v, vars !! i = Some v -> pre_dead vars i v = false -> pre' i = pre i.
  Definition same_outputs (fin fin' : nat -> value) : Prop := forall i v, vars !! i = Some v -> out_used v = true -> fin' i = fin i.

  Lemma agree_used pre pre' i v : agree pre pre' -> vars !! i = Some v -> pre_used v = true -> pre' i = pre i.
  Proof. intros H Hi Hu. apply (H i v Hi). unfold pre_dead. rewrite Hu. reflexivity. Qed.

  Lemma agree_entry pre pre' outs gouts o : agree pre pre' -> o ∈ entries g -> value_of pre' outs gouts o = value_of pre outs gouts o.
  Proof.
    intros H Hin. destruct o as [i|k|o]; try reflexivity. destruct (proj2 Huses i Hin) as (v & Hv & Hu). eapply agree_used; eassumption.
  Qed.

  Lemma step_var pre pre' outs gouts b c i v : agree pre pre' -> body pre outs gouts b c -> vars !! i = Some v ->
    (if c then pre_dead vars i v = false else out_used v = true) ->
    value_of pre' outs gouts (post (redirect_var g rep ext vars i v)) = value_of pre outs gouts (post v).
  Proof.
    intros Ha Hb Hi Hc.
    assert (Hold : value_of pre' outs gouts (post v) = value_of pre outs gouts (post v)).
    { destruct (post v) as [j|k|o] eqn:E; try reflexivity. cbn [value_of].
      destruct (lookup_lt_is_Some_2 vars j) as [w Hw]; [eapply Hposts; eassumption|].
      apply (Ha j w Hw). unfold pre_dead. apply andb_false_intro2. apply not_true_is_false. intros Hall.
      rewrite forallb_forall in Hall. specialize (Hall v). rewrite E, Nat.eqb_refl in Hall. cbn in Hall.
      assert (Hin : In v vars) by (apply elem_of_list_In; eapply elem_of_list_lookup_2; exact Hi). specialize (Hall Hin). discriminate. }
    assert (Hdiv : forall br k, post v = GammaOut k -> b = br -> value_of pre' outs gouts (post (divert g br k v)) = value_of pre outs gouts (post v)).
    { intros br k Hk <-. unfold divert. destruct (branches g !! b) as [rs|] eqn:Eb; [|exact Hold].
      destruct (rs !! k) as [[j| |o]|] eqn:Ek; try exact Hold. destruct (entries g !! j) as [o|] eqn:Ej; [|exact Hold].
      cbn [post]. rewrite Hk. cbn [value_of]. rewrite (Hexec _ _ _ _ _ _ _ _ _ Hb Eb Ek Ej).
      apply agree_entry; [exact Ha|]. eapply elem_of_list_lookup_2. exact Ej. }
    unfold redirect_var.
    destruct (negb (out_used v) && pre_dead vars i v) eqn:Edead; [exact Hold|].
    destruct (post v) as [j|k|o] eqn:Epost; try (rewrite Epost; exact Hold).
    pose proof (Hroles _ _ _ _ _ Hb) as Hrole.
    destruct (out_used v) eqn:Eo; cbn [negb].
    - destruct (pre_dead vars i v) eqn:Ep; [|rewrite Epost; exact Hold].
      destruct c; [discriminate|]. apply Hdiv; [reflexivity|exact Hrole].
    - destruct c; [|discriminate]. apply Hdiv; [reflexivity|exact Hrole].
  Qed.

  Lemma body_agree pre pre' outs gouts b c : agree pre pre' -> body pre outs gouts b c -> body pre' outs gouts b c.
  Proof. intros Ha Hb. eapply (proj1 Huses); [exact Hb|]. intros i v Hi Hu. eapply agree_used; eassumption. Qed.
  Lemma agree_sym pre pre' : agree pre pre' -> agree pre' pre.
  Proof. intros H i v Hi Hd. symmetry. exact (H i v Hi Hd). Qed.

  Lemma posts_of_redirect i v : vars !! i = Some v -> posts_of (redirect g rep ext vars) i = post (redirect_var g rep ext vars i v) /\ posts_of vars i = post v.
  Proof. intros Hi. unfold posts_of. rewrite (redirect_lookup i v Hi), Hi. split; reflexivity. Qed.

  Lemma next_agree pre pre' outs gouts b : agree pre pre' -> body pre outs gouts b true ->
    agree (fun i => value_of pre outs gouts (posts_of vars i)) (fun i => value_of pre' outs gouts (posts_of (redirect g rep ext vars) i)).
  Proof.
    intros Ha Hb i v Hi Hd. destruct (posts_of_redirect i v Hi) as [-> ->].
    eapply (step_var pre pre' outs gouts b true); eassumption.
  Qed.
  Lemma exit_same pre pre' outs gouts b : agree pre pre' -> body pre outs gouts b false ->
    same_outputs (fun i => value_of pre outs gouts (posts_of vars i)) (fun i => value_of pre' outs gouts (posts_of (redirect g rep ext vars) i)).
  Proof.
    intros Ha Hb i v Hi Hd. destruct (posts_of_redirect i v Hi) as [-> ->].
    eapply (step_var pre pre' outs gouts b false); eassumption.
  Qed.

  Lemma forward pre fin : run body (posts_of vars) pre fin -> forall pre', agree pre pre' ->
    exists fin', run body (posts_of (redirect g rep ext vars)) pre' fin' /\ same_outputs fin fin'.
  Proof.
    induction 1 as [pre outs gouts b Hb|pre outs gouts b fin Hb Hr IH]; intros pre' Ha.
    - eexists. split; [apply run_exit with (b := b); eapply body_agree; eassumption|]. eapply exit_same; eassumption.
    - destruct (IH _ (next_agree pre pre' outs gouts b Ha Hb)) as (fin' & Hr' & Hs). exists fin'. split; [|exact Hs].
      eapply run_repeat; [eapply body_agree; eassumption|exact Hr'].
  Qed.
  Lemma backward pre' fin' : run body (posts_of (redirect g rep ext vars)) pre' fin' -> forall pre, agree pre pre' ->
    exists fin, run body (posts_of vars) pre fin /\ same_outputs fin fin'.
  Proof.
    induction 1 as [pre' outs gouts b Hb|pre' outs gouts b fin Hb Hr IH]; intros pre Ha.
    - assert (Hb' : body pre outs gouts b false) by (eapply body_agree; [apply agree_sym; exact Ha|exact Hb]).
      eexists. split; [apply run_exit with (b := b); exact Hb'|]. eapply exit_same; eassumption.
    - assert (Hb' : body pre outs gouts b true) by (eapply body_agree; [apply agree_sym; exact Ha|exact Hb]).
      destruct (IH _ (next_agree pre pre' outs gouts b Ha Hb')) as (fin' & Hr' & Hs). exists fin'. split; [|exact Hs].
      eapply run_repeat; [exact Hb'|exact Hr'].
  Qed.
End Redirect.

(* The loop with the redirected post values has the same executions, up to the
   values of loop variables whose output has no users. *)
Theorem theta_gamma_preserves {value : Type} (body : (nat -> value) -> (nat -> value) -> (nat -> value) -> nat -> bool -> Prop) g rep ext vars pre :
  executes body g -> uses body g vars -> roles body rep ext -> posts_valid vars ->
  (forall fin, run body (posts_of vars) pre fin -> exists fin', run body (posts_of (redirect g rep ext vars)) pre fin' /\
     forall i v, vars !! i = Some v -> out_used v = true -> fin' i = fin i) /\
  (forall fin', run body (posts_of (redirect g rep ext vars)) pre fin' -> exists fin, run body (posts_of vars) pre fin /\
     forall i v, vars !! i = Some v -> out_used v = true -> fin' i = fin i).
Proof.
  intros H1 H2 H3 H4. split; intros fin Hr.
  - eapply (forward body g rep ext vars H1 H2 H3 H4); [exact Hr|]. intros i v _ _. reflexivity.
  - eapply (backward body g rep ext vars H1 H2 H3 H4); [exact Hr|]. intros i v _ _. reflexivity.
Qed.
