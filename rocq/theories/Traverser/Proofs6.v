(** What the commands do to the edges of the region. *)
From stdpp Require Import base list gmap.
From Verif.Region Require Import Model Spec Proofs Proofs2 Proofs3 Proofs4 Proofs5 Proofs6 Proofs7 Proofs8 Proofs9.
From Verif.Traverser Require Import Model Proofs Proofs2 Proofs3 Proofs4 Proofs5.

Lemma origin_of r i x : Core None r -> inputs r !! i = Some x -> exists o, in_origin x = Some o /\ is_output r o.
Proof. intros [HE _ _] Hx. destruct (e_in _ _ HE i x Hx ltac:(discriminate)) as (o & y & Ho & Hy & _). exists o. split; [assumption|now exists y]. Qed.
Lemma shift_arguments_nodes l : forall k r r', shift_arguments l k r = Some r' -> nodes r' = nodes r /\ inputs r' = inputs r /\ next_id r' = next_id r.
Proof.
  induction l as [|a l IH]; intros k r r' H; cbn in H; [injection H as <-; auto|]. destruct (outputs r !! a) as [y|]; [|discriminate]. cbn in H. apply IH in H. exact H.
Qed.
Lemma remove_outputs_loop_frame al ix l : forall live r r' live', remove_outputs_loop al ix l live r = Some (r', live') -> nodes r' = nodes r /\ inputs r' = inputs r /\ next_id r' = next_id r /\ args r' = args r.
Proof.
  induction l as [|o l IH]; intros live r r' live' H; cbn in H; [injection H as <- _; auto|]. destruct (outputs r !! o) as [y|]; [|discriminate]. cbn in H.
  destruct (decide _); apply IH in H; exact H.
Qed.

Section Effects.
  Context {T : Type} (obs : event -> region -> T -> T).

  (** commands that do not touch edges, and of which the observers hear nothing *)
  Definition unheard (c : command) : bool :=
    match c with CAddOutput _ _ _ | CRemoveOutputs _ _ | CAddArgument _ _ | CInsertArgument _ _ _ | CRemoveArguments _ | CPruneArguments => true | _ => false end.
  Lemma unheard_effect c (s s' : region * T) : Inv s.1 -> legal c s.1 -> unheard c = true -> exec obs c s = Ok s' ->
    E_td s'.1 = E_td s.1 /\ s'.2 = s.2 /\ (forall n, nd_id <$> nodes s'.1 !! n = nd_id <$> nodes s.1 !! n) /\ next_id s'.1 = next_id s.1.
  Proof.
    intros HI HL Hc HE. assert (Inv s'.1) as HI' by (pose proof (exec_ok obs c s HI HL) as K; now rewrite HE in K).
    assert (inputs s'.1 = inputs s.1 -> next_id s'.1 = next_id s.1 -> (forall n, nd_id <$> nodes s'.1 !! n = nd_id <$> nodes s.1 !! n) -> s'.2 = s.2 ->
      (forall o n nd', is_output s.1 o -> nodes s'.1 !! n = Some nd' -> o ∈ nd_outputs nd' -> exists nd, nodes s.1 !! n = Some nd /\ o ∈ nd_outputs nd) ->
      (forall o, is_output s.1 o -> o ∈ args s'.1 -> o ∈ args s.1) ->
      E_td s'.1 = E_td s.1 /\ s'.2 = s.2 /\ (forall n, nd_id <$> nodes s'.1 !! n = nd_id <$> nodes s.1 !! n) /\ next_id s'.1 = next_id s.1) as K.
    { intros Hin Hid Hn Ht Ho Ha. split; [|auto]. apply E_td_same; [intros i; now rewrite Hin|]. intros i x o Hx Hox.
      destruct (origin_of _ _ _ (v_core _ HI) Hx) as (o1 & E1 & O1). destruct (origin_of s'.1 i x (v_core _ HI')) as (o2 & E2 & O2); [now rewrite Hin|].
      assert (o1 = o) as -> by congruence. assert (o2 = o) as -> by congruence. apply owners_sub; [apply HI|apply HI'|assumption..| |auto]. intros n nd'. now apply Ho. }
    destruct c; try discriminate; cbn [exec] in HE.
    - destruct HL as [[nd Hp] Ho]. destruct (add_output_ok p o ty s nd HI Hp Ho) as (s1 & E & _ & Ht & Hn & Hin & Ha & _ & Hid & _). rewrite E in HE. cbn in HE. injection HE as <-.
      apply K; [assumption|assumption| |assumption| |intros o'; now rewrite Ha].
      + intros n. rewrite Hn. destruct (decide (n = p)) as [->|D]; [rewrite lookup_insert, Hp; reflexivity|rewrite lookup_insert_ne by auto; reflexivity].
      + intros o' n nd' Hout. rewrite Hn. destruct (decide (n = p)) as [->|D]; [rewrite lookup_insert|rewrite lookup_insert_ne by auto; eauto].
        intros E1. injection E1 as <-. simpl. intros H. apply elem_of_app in H as [H|H]; [eauto|]. apply elem_of_list_singleton in H. subst. unfold fresh_output in Ho. destruct Hout as [y Hy]. congruence.
    - destruct HL as [nd Hp]. destruct (remove_outputs_ok p indices s nd HI Hp) as (s1 & live & E & _ & Ht & Hn & Hsub & _ & _ & _ & Hin & Ha & _ & Hid). rewrite E in HE. cbn in HE. injection HE as <-.
      apply K; [assumption|assumption| |assumption| |intros o'; now rewrite Ha].
      + intros n. rewrite Hn. destruct (decide (n = p)) as [->|D]; [rewrite lookup_insert, Hp; reflexivity|rewrite lookup_insert_ne by auto; reflexivity].
      + intros o' n nd' Hout. rewrite Hn. destruct (decide (n = p)) as [->|D]; [rewrite lookup_insert|rewrite lookup_insert_ne by auto; eauto].
        intros E1. injection E1 as <-. simpl. intros H. exists nd. split; [assumption|]. eapply elem_of_sublist; eassumption.
    - injection HE as <-. unfold add_argument in *. simpl in *. apply K; try reflexivity; eauto. intros o Ho H. apply elem_of_app in H as [H|H]; [assumption|].
      apply elem_of_list_singleton in H. subst. unfold fresh_output in HL. destruct Ho as [y Hy]. congruence.
    - unfold insert_argument in HE. destruct (decide _) as [D|D]; [discriminate|]. destruct (shift_arguments _ _ _) as [r|] eqn:E; [|discriminate]. injection HE as <-. simpl in *.
      apply shift_arguments_nodes in E as (E1 & E2 & E3). apply K; simpl; rewrite ?E1, ?E2, ?E3; try reflexivity; eauto. intros o Ho H.
      apply elem_of_app in H as [H|H]; [eapply elem_of_take in H as (k & H & _); eapply elem_of_list_lookup_2; exact H|]. apply elem_of_cons in H as [->|H].
      + unfold fresh_output in HL. destruct Ho as [y Hy]. congruence.
      + apply elem_of_list_lookup in H as [k H]. rewrite lookup_drop in H. eapply elem_of_list_lookup_2; exact H.
    - unfold remove_arguments in HE. destruct (decide (indices = [])) as [D|D].
      { cbn in HE. injection HE as <-. apply K; try reflexivity; eauto. }
      destruct (remove_args_ok false indices s HI) as (s1 & live & E & _ & Ht & Ha & Hsub & _ & _ & Hin & Hn & _). pose proof E as E'.
      destruct (remove_outputs_loop false indices (args s.1) [] s.1) as [[r lv]|] eqn:El; [|discriminate]. cbn in HE, E. injection HE as <-. injection E as <-. simpl in *.
      apply remove_outputs_loop_frame in El as (F1 & F2 & F3 & F4). apply K; simpl; rewrite ?F1, ?F2, ?F3; try reflexivity; eauto.
      intros o Ho H. subst. eapply elem_of_sublist; eassumption.
    - unfold prune_arguments in HE.
      destruct (remove_args_ok true [] s HI) as (s1 & live & E & _ & Ht & Ha & Hsub & _ & _ & Hin & Hn & _).
      destruct (remove_outputs_loop true [] (args s.1) [] s.1) as [[r lv]|] eqn:El; [|discriminate]. cbn in HE, E. injection HE as <-. injection E as <-. simpl in *.
      apply remove_outputs_loop_frame in El as (F1 & F2 & F3 & F4). apply K; simpl; rewrite ?F1, ?F2, ?F3; try reflexivity; eauto.
      intros o Ho H. subst. eapply elem_of_sublist; eassumption.
  Qed.

  (** a dead node disappears *)
  Lemma destroy_effect p nd (s : region * T) : Inv s.1 -> nodes s.1 !! p = Some nd -> nd_succ nd = 0 ->
    exists s', remove_node obs p s = Some s' /\ Inv s'.1 /\ s'.2 = obs (ENodeDestroy p) s.1 s.2 /\
      (forall m, is_node s'.1 m <-> is_node s.1 m /\ m <> p) /\ (forall n, n <> p -> shape_node <$> nodes s'.1 !! n = shape_node <$> nodes s.1 !! n) /\
      next_id s'.1 = next_id s.1 /\ E_td s'.1 = foldr delete (E_td s.1) (node_inputs s.1 p) /\
      (forall i, i ∈ node_inputs s.1 p -> inputs s'.1 !! i = None) /\ (forall i, i ∉ node_inputs s.1 p -> E_td s'.1 !! i = E_td s.1 !! i) /\
      (forall i w, E_td s.1 !! i <> Some (Some p, w)).
  Proof.
    intros HI Hp Hz. destruct (remove_node_ok obs p s nd HI Hp Hz) as (s' & E & HI' & Hnone & Hn & Ho & Hin & _ & _ & _ & Hid & Ht).
    assert (node_inputs s.1 p = nd_inputs nd) as Hni by (unfold node_inputs; now rewrite Hp).
    assert (forall i w, E_td s.1 !! i <> Some (Some p, w)) as Hfrom.
    { intros i w H. apply E_td_some in H as (x & Hx & Hf & _). destruct (e_in _ _ (k_e _ _ (v_core _ HI)) i x Hx ltac:(discriminate)) as (o & y & Hox & Hy & Hin' & _).
      rewrite Hox in Hf. simpl in Hf. symmetry in Hf. apply output_node_some in Hf as (nd' & Hp' & Ho'); [|apply HI]. assert (nd' = nd) as -> by congruence.
      pose proof (dead_no_users s.1 p nd o y (v_core _ HI) Hp Hz Ho' Hy) as K. rewrite K in Hin'. inversion Hin'. }
    assert (forall i, i ∉ node_inputs s.1 p -> E_td s'.1 !! i = E_td s.1 !! i) as HE.
    { intros i Hi. rewrite !E_td_lookup, Hin, lookup_foldr_delete. rewrite Hni in Hi. rewrite decide_False by assumption. destruct (inputs s.1 !! i) as [x|] eqn:Hx; [|reflexivity]. simpl. do 2 f_equal.
      destruct (in_origin x) as [o|] eqn:Hox; [|reflexivity]. simpl. apply output_node_shape. rewrite Ho, decide_False; [reflexivity|]. intros K.
      apply (Hfrom i (owner_node (in_owner x))). apply E_td_some. exists x. split; [assumption|]. split; [|reflexivity]. rewrite Hox. simpl. symmetry. apply output_node_some; [apply HI|eauto]. }
    exists s'. split; [assumption|]. split; [assumption|]. split; [assumption|]. split; [|split; [assumption|split; [assumption|split; [|split; [|split; [assumption|assumption]]]]]].
    - intros m. destruct (decide (m = p)) as [->|D]; [unfold is_node; rewrite Hnone; split; [intros [? ?]; discriminate|tauto]|]. rewrite (is_node_shape s.1 s'.1 m (Hn m D)). tauto.
    - apply map_eq. intros i. rewrite lookup_foldr_delete. destruct (decide (i ∈ node_inputs s.1 p)) as [D|D]; [|now apply HE].
      rewrite E_td_lookup, Hin, lookup_foldr_delete. rewrite Hni in D. rewrite decide_True by assumption. reflexivity.
    - intros i D. rewrite Hin, lookup_foldr_delete. rewrite Hni in D. rewrite decide_True by assumption. reflexivity.
  Qed.

  (** an input is diverted *)
  Lemma divert_effect i o (s s' : region * T) : Inv s.1 -> is_input s.1 i -> divert_to obs i o s = Ok s' ->
    Inv s'.1 /\ same_shape s.1 s'.1 /\ (s' = s \/ exists o0 f f' w, s'.2 = obs (EInputChange i o0 o) s'.1 s.2 /\
      E_td s.1 !! i = Some (f, w) /\ E_td s'.1 = <[i := (f', w)]> (E_td s.1) /\ output_node s'.1 o0 = f /\ output_node s'.1 o = f' /\
      (forall n, w = Some n -> is_node s.1 n) /\ (forall n, f = Some n -> is_node s.1 n) /\ (forall n, f' = Some n -> is_node s.1 n)).
  Proof.
    intros HI Hi HE. pose proof (divert_to_ok obs i o s HI Hi) as K. rewrite HE in K. destruct K as (HI' & HS & x & o0 & Hx & Ho0 & Hout & Hin & D).
    split; [assumption|]. split; [assumption|]. destruct D as [[_ ->]|(Hne & _ & Ht)]; [now left|]. right.
    assert (forall o, output_node s'.1 o = output_node s.1 o) as HO by (intros o'; apply output_node_shape; symmetry; apply (ss_outputs _ _ HS)).
    exists o0, (output_node s.1 o0), (output_node s'.1 o), (owner_node (in_owner x)). split; [assumption|]. split; [|split; [|split; [apply HO|split; [reflexivity|]]]].
    - apply E_td_some. exists x. rewrite Ho0. auto.
    - rewrite (E_td_insert s.1 s'.1 i (with_origin (Some o) x) Hin HO). reflexivity.
    - split; [|split].
      + intros n E. assert (input_node s.1 i = Some n) as H by (unfold input_node; now rewrite Hx). apply input_node_some in H as (nd & H & _); [now exists nd|apply HI].
      + intros n E. apply output_node_some in E as (nd & H & _); [now exists nd|apply HI].
      + intros n E. rewrite HO in E. apply output_node_some in E as (nd & H & _); [now exists nd|apply HI].
  Qed.

  (** a new input of a node or of the region *)
  Lemma new_input_effect (s s' : region * T) i x : Inv s.1 -> inputs s.1 !! i = None -> inputs s'.1 = <[i := x]> (inputs s.1) ->
    (forall o', shape_out <$> outputs s'.1 !! o' = shape_out <$> outputs s.1 !! o') ->
    E_td s.1 !! i = None /\ E_td s'.1 = <[i := (in_origin x ≫= output_node s.1, owner_node (in_owner x))]> (E_td s.1).
  Proof.
    intros HI Hi Hin HO. split; [rewrite E_td_lookup, Hi; reflexivity|]. assert (forall o, output_node s'.1 o = output_node s.1 o) as HO' by (intros o'; apply output_node_shape, HO).
    rewrite (E_td_insert s.1 s'.1 i x Hin HO'). f_equal. f_equal. destruct (in_origin x); [simpl; apply HO'|reflexivity].
  Qed.

  Lemma create_effect (s s' : region * T) p (ins : list ptr) : Inv s.1 -> Inv s'.1 -> nodes s.1 !! p = None ->
    (exists nd, nodes s'.1 !! p = Some nd /\ nd_inputs nd = ins /\ forall o, o ∈ nd_outputs nd -> outputs s.1 !! o = None /\ exists y, outputs s'.1 !! o = Some y /\ out_users y = []) ->
    (forall n, n <> p -> shape_node <$> nodes s'.1 !! n = shape_node <$> nodes s.1 !! n) ->
    (forall i, i ∉ ins -> inputs s'.1 !! i = inputs s.1 !! i) ->
    (forall o, is_output s.1 o -> shape_out <$> outputs s'.1 !! o = shape_out <$> outputs s.1 !! o) ->
    is_node s'.1 p /\ (forall m, m <> p -> is_node s'.1 m <-> is_node s.1 m) /\
    (forall i, i ∉ node_inputs s'.1 p -> E_td s'.1 !! i = E_td s.1 !! i) /\ (forall i w, E_td s'.1 !! i <> Some (Some p, w)) /\ node_inputs s'.1 p = ins.
  Proof.
    intros HI HI' Hp (nd & Hp' & Hins & Hno) Hn Hin Ho. assert (node_inputs s'.1 p = ins) as Hni by (unfold node_inputs; now rewrite Hp').
    split; [now exists nd|]. split; [intros m D; now apply is_node_shape, Hn|]. split; [|split; [|assumption]].
    - intros i Hi. rewrite Hni in Hi. rewrite !E_td_lookup, Hin by assumption. destruct (inputs s.1 !! i) as [x|] eqn:Hx; [|reflexivity]. simpl. do 2 f_equal.
      destruct (origin_of _ _ _ (v_core _ HI) Hx) as (o & -> & HO). simpl. now apply output_node_shape, Ho.
    - intros i w H. apply E_td_some in H as (x & Hx & Hf & _). destruct (e_in _ _ (k_e _ _ (v_core _ HI')) i x Hx ltac:(discriminate)) as (o & y & Hox & Hy & Hin' & _).
      rewrite Hox in Hf. simpl in Hf. symmetry in Hf. apply output_node_some in Hf as (nd' & Hp2 & Ho'); [|apply HI']. assert (nd' = nd) as -> by congruence.
      destruct (Hno o Ho') as (_ & y' & Hy' & E). assert (y' = y) as -> by congruence. rewrite E in Hin'. inversion Hin'.
  Qed.
End Effects.
