(** C17, C18, C19: the def-use graph of a region under every editing history *)
From stdpp Require Import base list gmap.
From Verif.Region Require Import Model Spec Proofs Proofs2 Proofs3 Proofs4 Proofs5 Proofs6 Proofs7 Proofs8 Proofs9.

(** [s] can be reached from an empty region by some history of legal commands,
    whatever observers are registered and whatever they do. *)
Definition reachable {T} (obs : event -> region -> T -> T) (s : region * T) : Prop := exists t, history obs (empty_region, t) s.
Lemma reachable_Inv {T} obs (s : region * T) : reachable obs s -> Inv s.1.
Proof. intros [t H]. eapply history_Inv; [|exact H]. apply empty_Inv. Qed.
Lemma reachable_step {T} obs c (s s' : region * T) : reachable obs s -> legal c s.1 -> exec obs c s = Ok s' -> reachable obs s'.
Proof. intros [t H] HL HE. exists t. eapply h_step; eauto. Qed.

Section Properties.
  Context {T : Type} (obs : event -> region -> T -> T).

  (** After every history of node creation and removal, addition and removal of
      inputs, outputs, arguments and results, divert_to, divert_users and prune,
      the graph is consistent: origins and users agree, each user is listed once,
      all counters and indices are right, TopNodes() are exactly the nodes
      without inputs, BottomNodes() exactly the dead nodes, Nodes() all nodes, each
      once. *)
  Theorem history_consistent s : reachable obs s -> consistent s.1.
  Proof. intros H. apply Inv_consistent. eapply reachable_Inv; exact H. Qed.

  (** No legal call dereferences a dead object, links or unlinks a node twice or
      destroys something that is still in use. *)
  Theorem history_defined s c : reachable obs s -> legal c s.1 -> exec obs c s <> UB.
  Proof. intros H HL E. pose proof (exec_ok obs c s (reachable_Inv _ _ H) HL) as K. now rewrite E in K. Qed.

  (** A call that is rejected by an exception leaves the graph unchanged, and the
      observers hear nothing. *)
  Theorem rejected_calls_change_nothing s s' c : reachable obs s -> legal c s.1 -> exec obs c s = Throws s' -> same_graph s.1 s'.1 /\ s'.2 = s.2.
  Proof. intros H HL E. pose proof (exec_ok obs c s (reachable_Inv _ _ H) HL) as K. rewrite E in K. tauto. Qed.

  (** [i] has origin [o] iff [i] is listed among the users of [o], once. *)
  Theorem origin_iff_user s i o : reachable obs s ->
    ((exists x, inputs s.1 !! i = Some x /\ in_origin x = Some o) <-> i ∈ users_of s.1 o) /\ NoDup (users_of s.1 o).
  Proof.
    intros H. pose proof (reachable_Inv _ _ H) as HI. split; [|now apply users_nodup]. split.
    - intros (x & Hx & Ho). exact (proj1 (user_origin _ _ _ _ HI Hx Ho)).
    - apply user_is_input. assumption.
  Qed.

  (** ** effects *)
  (** divert_to: the input gets the new origin, moves from the users of the old
      origin to the end of the users of the new one, and nothing else changes; it
      throws iff the new origin is not an output of the region of the input's type. *)
  Theorem divert_to_effect s i x o0 o : reachable obs s -> inputs s.1 !! i = Some x -> in_origin x = Some o0 -> o0 <> o ->
    match divert_to obs i o s with
    | Ok s' => (exists y, outputs s.1 !! o = Some y /\ out_type y = in_type x) /\
        inputs s'.1 = <[i := {| in_owner := in_owner x; in_origin := Some o; in_index := in_index x; in_type := in_type x |}]> (inputs s.1) /\
        users_of s'.1 o = users_of s.1 o ++ [i] /\
        users_of s'.1 o0 = filter (fun j => j <> i) (users_of s.1 o0) /\
        (forall o', o' <> o -> o' <> o0 -> users_of s'.1 o' = users_of s.1 o') /\
        same_shape s.1 s'.1 /\
        s'.2 = obs (EInputChange i o0 o) s'.1 s.2
    | Throws s' => s' = s /\ ~ exists y, outputs s.1 !! o = Some y /\ out_type y = in_type x
    | UB => False
    end.
  Proof.
    intros H Hx Ho Hne. pose proof (divert_to_ok obs i o s (reachable_Inv _ _ H) (ex_intro _ x Hx)) as A.
    destruct (divert_to obs i o s) as [s'|s'|] eqn:E; [| |contradiction].
    - destruct A as (HI' & HS & x' & o' & Hx' & Ho' & Hout & Hin & D). assert (x' = x) as -> by congruence. assert (o' = o0) as -> by congruence.
      destruct D as [[D _]|(_ & HU & Hobs)]; [contradiction|]. split; [|split; [exact Hin|split; [|split; [|split; [|split; [exact HS|exact Hobs]]]]]].
      + destruct (e_in _ _ (k_e _ _ (v_core _ HI')) i (with_origin (Some o) x)) as (o2 & y & E1 & Hy & _ & Ht); [rewrite Hin; apply lookup_insert|discriminate|].
        simpl in E1. injection E1 as <-. destruct (ss_out_r _ _ _ _ HS Hy) as (y' & Hy' & F). apply shape_out_inv in F as (_ & _ & F). exists y'. split; [assumption|]. simpl in Ht. congruence.
      + rewrite HU, decide_True by reflexivity. reflexivity.
      + rewrite HU, decide_False, decide_True by auto. reflexivity.
      + intros o' N1 N2. rewrite HU, !decide_False by assumption. reflexivity.
    - destruct A as [-> A]. split; [reflexivity|]. intros (y & Hy & Ht). specialize (A x Hx). unfold check_types in A. rewrite Hy in A. apply bool_decide_eq_false in A. congruence.
  Qed.

  (** divert_users: all users of [o] become users of [o'], in the same order. *)
  Theorem divert_users_effect s o o' y y' : reachable obs s -> o <> o' -> outputs s.1 !! o = Some y -> outputs s.1 !! o' = Some y' -> out_type y = out_type y' ->
    exists s', divert_users obs o o' s = Ok s' /\ users_of s'.1 o = [] /\ users_of s'.1 o' = users_of s.1 o' ++ users_of s.1 o /\
      (forall o2, o2 <> o -> o2 <> o' -> users_of s'.1 o2 = users_of s.1 o2) /\ same_shape s.1 s'.1 /\
      (forall i, i ∈ users_of s.1 o -> exists x', inputs s'.1 !! i = Some x' /\ in_origin x' = Some o') /\
      (forall i, i ∉ users_of s.1 o -> inputs s'.1 !! i = inputs s.1 !! i).
  Proof.
    intros H Hne Hy Hy' Ht. pose proof (reachable_Inv _ _ H) as HI. unfold divert_users. rewrite decide_False by assumption. rewrite Hy.
    destruct (divert_users_loop_ok obs _ o o' y' s y HI Hne Hy Hy' Ht eq_refl) as (s' & E & HI' & HS' & U1 & U2 & U3 & M).
    exists s'. split; [assumption|]. split; [assumption|]. split; [assumption|]. split; [assumption|]. split; [assumption|]. split.
    - intros i Hi. rewrite M, decide_True by assumption. destruct (user_is_input s.1 o i HI Hi) as (x & -> & _). simpl. eauto.
    - intros i Hi. rewrite M, decide_False by assumption. reflexivity.
  Qed.

  (** A simple node is created iff the operands are outputs of the region of the
      right number and types; then its inputs and outputs are the given ones in
      order, and it has a fresh id. *)
  Theorem create_simple_effect s p tys ops ins outs : reachable obs s -> legal (CCreateSimple p tys ops ins outs) s.1 ->
    let fits := length tys = length ops /\ forall k o ty, ops !! k = Some o -> tys !! k = Some ty -> exists y, outputs s.1 !! o = Some y /\ out_type y = ty in
    match create_simple obs p tys ops ins outs s with
    | Ok s' => fits /\
        (exists nd, nodes s'.1 !! p = Some nd /\ nd_inputs nd = ins /\ nd_outputs nd = map fst outs /\ nd_id nd = next_id s.1) /\
        (forall k i o ty, ins !! k = Some i -> ops !! k = Some o -> tys !! k = Some ty ->
           inputs s'.1 !! i = Some {| in_owner := ONode p; in_origin := Some o; in_index := k; in_type := ty |}) /\
        (forall k o ty, outs !! k = Some (o, ty) -> exists y, outputs s'.1 !! o = Some y /\ out_owner y = ONode p /\ out_index y = k /\ out_type y = ty /\ out_users y = []) /\
        (forall n, n <> p -> shape_node <$> nodes s'.1 !! n = shape_node <$> nodes s.1 !! n) /\
        (forall i, i ∉ ins -> inputs s'.1 !! i = inputs s.1 !! i) /\
        (forall o, o ∉ map fst outs -> shape_out <$> outputs s'.1 !! o = shape_out <$> outputs s.1 !! o) /\
        s'.2 = obs (ENodeCreate p) s'.1 s.2
    | Throws s' => ~ fits /\ same_graph s.1 s'.1
    | UB => False
    end.
  Proof.
    intros H HL fits. pose proof (create_simple_ok obs p tys ops ins outs s (reachable_Inv _ _ H) HL) as A.
    assert (forall o ty, check_types o ty s.1 = true <-> exists y, outputs s.1 !! o = Some y /\ out_type y = ty) as C.
    { intros o ty. unfold check_types. destruct (outputs s.1 !! o) as [y|].
      - rewrite bool_decide_eq_true. split; [intros ->; eauto|]. intros (y' & E & F). congruence.
      - split; [discriminate|]. intros (y & E & _). discriminate. }
    destruct (create_simple obs p tys ops ins outs s) as [s'|s'|]; [| |contradiction].
    - destruct A as (A0 & A1 & A2 & A3 & A4 & A5 & A6 & A7 & A8 & _ & _ & _ & A9). split; [|split; [exact A3|split; [exact A4|split; [|split; [exact A6|split; [exact A8|split; [exact A7|exact A9]]]]]]].
      + split; [assumption|]. intros k o ty H1 H2. apply C. eauto.
      + intros k o ty Hk. eexists. split; [exact (A5 k o ty Hk)|]. simpl. auto.
    - destruct A as (A0 & A1 & _ & A2). split; [|assumption]. intros [F1 F2]. destruct A2 as [A2|(k & o & ty & H1 & H2 & H3)]; [contradiction|].
      specialize (F2 k o ty H1 H2). apply C in F2. congruence.
  Qed.

  (** RemoveInputs removes exactly the inputs with the given indices; the others
      keep their order and are renumbered. *)
  Theorem remove_inputs_effect s p nd ix : reachable obs s -> nodes s.1 !! p = Some nd -> nd_inputs nd <> [] ->
    exists s' nd', remove_inputs obs p ix s = Some s' /\ nodes s'.1 !! p = Some nd' /\ nd_inputs nd' `sublist_of` nd_inputs nd /\
      (forall k i, nd_inputs nd !! k = Some i -> (i ∈ nd_inputs nd' <-> k ∉ ix)) /\
      (forall k i, nd_inputs nd !! k = Some i -> k ∈ ix -> inputs s'.1 !! i = None /\ forall o, i ∉ users_of s'.1 o) /\
      (forall n, n <> p -> shape_node <$> nodes s'.1 !! n = shape_node <$> nodes s.1 !! n) /\
      (forall o, shape_out <$> outputs s'.1 !! o = shape_out <$> outputs s.1 !! o) /\
      (forall i, i ∉ nd_inputs nd -> inputs s'.1 !! i = inputs s.1 !! i).
  Proof.
    intros H Hp Hne. pose proof (reachable_Inv _ _ H) as HI.
    destruct (remove_inputs_ok obs p ix s nd HI Hp Hne) as (s' & live & E & HI' & _ & Hsub & (nd' & Hp' & <- & _) & A & B & C & D & F & _ & U & _).
    assert (forall k i, nd_inputs nd !! k = Some i -> (i ∈ nd_inputs nd' <-> k ∉ ix)) as K.
    { intros k i Hk. rewrite (A i) by (eapply elem_of_list_lookup_2; eassumption). destruct (proj1 (i_node _ (v_i _ HI) p k i)) as (x & Hx & _ & Ei); [eauto|].
      split; [intros G Hin; apply G; exists x; split; [assumption|congruence]|]. intros G (x' & Hx' & Hin). apply G. congruence. }
    exists s', nd'. split; [assumption|]. split; [assumption|]. split; [assumption|]. split; [exact K|]. split; [|split; [exact B|split; [exact C|exact D]]].
    intros k i Hk Hin. assert (i ∈ nd_inputs nd) as G by (eapply elem_of_list_lookup_2; eassumption). assert (i ∉ nd_inputs nd') as G' by (rewrite (K k i Hk); tauto).
    split; [now apply F|]. intros o Ho. apply U in Ho as [_ Ho]. auto.
  Qed.

  (** RemoveOutputs removes exactly the outputs with the given indices that are
      dead; the others keep their order, their users, and are renumbered. *)
  Theorem remove_outputs_effect s p nd ix : reachable obs s -> nodes s.1 !! p = Some nd ->
    exists s' nd', remove_outputs p ix s = Some s' /\ nodes s'.1 !! p = Some nd' /\ nd_outputs nd' `sublist_of` nd_outputs nd /\
      (forall k o, nd_outputs nd !! k = Some o -> (o ∈ nd_outputs nd' <-> ~ (k ∈ ix /\ users_of s.1 o = []))) /\
      (forall o, users_of s'.1 o = users_of s.1 o) /\ inputs s'.1 = inputs s.1 /\
      (forall n, n <> p -> nodes s'.1 !! n = nodes s.1 !! n).
  Proof.
    intros H Hp. pose proof (reachable_Inv _ _ H) as HI.
    destruct (remove_outputs_ok p ix s nd HI Hp) as (s' & live & E & HI' & _ & Hn & Hsub & A & U & _ & Hin & _).
    exists s', (with_outputs live nd). split; [exact E|]. split; [rewrite Hn; apply lookup_insert|]. split; [assumption|]. split; [|split; [assumption|split; [assumption|]]].
    - intros k o Hk. simpl. rewrite (A o) by (eapply elem_of_list_lookup_2; eassumption). destruct (proj1 (o_node _ (k_o _ _ (v_core _ HI)) p k o)) as (y & Hy & _ & Ei); [eauto|].
      unfold users_of. rewrite Hy. split; intros G K; apply G.
      + destruct K. exists y. split; [reflexivity|]. split; [assumption|congruence].
      + destruct K as (y' & Hy' & K1 & K2). assert (y' = y) as -> by congruence. split; [congruence|assumption].
    - intros n Dn. rewrite Hn. apply lookup_insert_ne; auto.
  Qed.

  (** ** prune *)
  (** prune terminates; exactly the useless nodes are gone (those all of whose
      users, recursively, are useless); arguments and results stay, surviving
      inputs keep their origins, and no dead node is left. *)
  Theorem prune_removes_useless s : reachable obs s ->
    exists s', prune obs s = Some s' /\
      (forall n, is_node s'.1 n <-> is_node s.1 n /\ ~ useless s.1 n) /\
      (forall n, is_node s'.1 n -> shape_node <$> nodes s'.1 !! n = shape_node <$> nodes s.1 !! n) /\
      (forall i, is_input s'.1 i -> inputs s'.1 !! i = inputs s.1 !! i) /\
      args s'.1 = args s.1 /\ results s'.1 = results s.1 /\ (forall n, ~ dead s'.1 n) /\ reachable obs s'.
  Proof.
    intros H. pose proof (reachable_Inv _ _ H) as HI. destruct (prune_ok obs s HI) as (s' & E & HI' & Hb & Ha & Hr & Hid & N1 & N2 & I1 & O1 & A1).
    exists s'. split; [assumption|].
    assert (forall n, is_node s'.1 n -> ~ useless s.1 n) as K. { intros n [nd Hn] Hu. rewrite (N2 n Hu) in Hn. discriminate. }
    split; [|split; [|split; [assumption|split; [assumption|split; [assumption|split]]]]].
    - intros n. split.
      + intros Hn. split; [|auto]. pose proof (N1 n (K n Hn)) as F. destruct Hn as [nd Hn]. rewrite Hn in F. unfold is_node. destruct (nodes s.1 !! n); [eauto|discriminate].
      + intros [[nd Hn] Hu]. pose proof (N1 n Hu) as F. rewrite Hn in F. unfold is_node. destruct (nodes s'.1 !! n); [eauto|discriminate].
    - intros n Hn. apply N1. auto.
    - intros n (nd & Hn & Hz). assert (n ∈ il_elems (bottom s'.1)) as F by (apply (b_iff _ (k_b _ _ (v_core _ HI'))); eauto). rewrite Hb in F. inversion F.
    - eapply (reachable_step obs CPrune); [exact H|exact I|]. cbn [exec]. rewrite E. reflexivity.
  Qed.

  (** In an acyclic region the survivors are exactly the nodes from which some
      result of the region is reachable along def-use edges. *)
  Lemma useless_not_needed s n : Inv s -> useless s n -> needed s n -> False.
  Proof.
    intros HI Hu. induction Hu as [n nd Hn Hall IH] using useless_ind'. intros Hd. destruct Hd as [n Hf|n m Hm Hd].
    - destruct Hf as (nd' & i & o & x & Hn' & Ho & Hir & Hx & Hxo). assert (nd' = nd) as -> by congruence.
      destruct (Hall o i Ho) as (x' & m & Hx' & Hm & _). { exact (proj1 (user_origin _ _ _ _ HI Hx Hxo)). }
      apply elem_of_list_lookup in Hir as [k Hk]. apply (i_res _ (v_i _ HI)) in Hk as (x2 & Hx2 & F & _). congruence.
    - destruct Hm as (nd' & i & o & x & Hn' & Ho & Hx & Hxo & Hxm). assert (nd' = nd) as -> by congruence.
      destruct (IH o i Ho) as (x' & m' & Hx' & Hm' & F). { exact (proj1 (user_origin _ _ _ _ HI Hx Hxo)). }
      assert (m' = m) as -> by congruence. auto.
  Qed.
  Lemma not_dead_user s n nd : Inv s -> nodes s !! n = Some nd -> nd_succ nd <> 0 -> exists o i, o ∈ nd_outputs nd /\ i ∈ users_of s o.
  Proof.
    intros HI Hn Hz. rewrite (b_succ _ (k_b _ _ (v_core _ HI)) n nd Hn) in Hz. rewrite total_concat in Hz by assumption.
    destruct (concat (map (users_of s) (nd_outputs nd))) as [|i l] eqn:E; [contradiction|].
    assert (i ∈ concat (map (users_of s) (nd_outputs nd))) as K by (rewrite E; now left).
    apply elem_of_list_In, in_concat in K as (us & K1 & K2). apply elem_of_list_In in K1, K2. apply elem_of_list_fmap in K1 as (o & -> & Ho). eauto.
  Qed.
  Theorem prune_keeps_needed s : reachable obs s -> acyclic s.1 ->
    exists s', prune obs s = Some s' /\
      (forall n, is_node s'.1 n <-> needed s.1 n) /\
      (forall n, is_node s'.1 n -> shape_node <$> nodes s'.1 !! n = shape_node <$> nodes s.1 !! n) /\
      (forall i, is_input s'.1 i -> inputs s'.1 !! i = inputs s.1 !! i) /\
      args s'.1 = args s.1 /\ results s'.1 = results s.1.
  Proof.
    intros H HA. pose proof (reachable_Inv _ _ H) as HI. destruct (prune_removes_useless s H) as (s' & E & A1 & A2 & A3 & A4 & A5 & A6 & H').
    pose proof (reachable_Inv _ _ H') as HI'. exists s'. split; [assumption|]. split; [|auto]. intros n. split.
    - induction (HA n) as [n _ IH]. intros Hn. pose proof (A2 n Hn) as Sh. destruct Hn as [nd Hn]. rewrite Hn in Sh. destruct (nodes s.1 !! n) as [nd0|] eqn:Hn0; [|discriminate].
      simpl in Sh. assert (shape_node nd = shape_node nd0) as Sh' by congruence. apply shape_node_inv in Sh' as (_ & _ & Sh').
      destruct (not_dead_user s'.1 n nd HI' Hn) as (o & i & Ho & Hi). { intros Hz. apply (A6 n). exists nd. auto. }
      destruct (user_is_input s'.1 o i HI' Hi) as (x & Hx & Hxo). rewrite Sh' in Ho. pose proof Hx as Hx0. rewrite A3 in Hx0 by (eexists; exact Hx).
      destruct (in_owner x) as [m|] eqn:Hm.
      + assert (uses s.1 m n) as Hu by (exists nd0, i, o, x; auto 10). eapply needed_user; [exact Hu|]. apply (IH m Hu).
        destruct (proj2 (i_node _ (v_i _ HI') m (in_index x) i)) as (md & Hmd & _); [eauto|]. eexists; exact Hmd.
      + apply needed_result. exists nd0, i, o, x. split; [assumption|]. split; [assumption|]. split; [|auto].
        eapply elem_of_list_lookup_2. apply (i_res _ (v_i _ HI)). eauto.
    - intros Hn. apply A1. split.
      + destruct Hn as [n (nd & _ & _ & _ & Hn & _)|n m (nd & _ & _ & _ & Hn & _) _]; eexists; exact Hn.
      + intros Hu. exact (useless_not_needed _ _ HI Hu Hn).
  Qed.
End Properties.

(** ** A finding: RemoveInputs with a non-empty index set on a node that has no
    inputs links the node a second time into the list of top nodes (node.cpp:331
    calls onTopNodeAdded whenever no input is left). *)
Definition quiet : event -> region -> unit -> unit := fun _ _ t => t.
Theorem remove_inputs_of_inputless_node_refuted :
  exists s, reachable quiet s /\ is_node s.1 7 /\ exec quiet (CRemoveInputs 7 [0]) s = UB.
Proof.
  destruct (exec quiet (CCreateSimple 7 [] [] [] []) (empty_region, tt)) as [s|s|] eqn:E; [|discriminate E|discriminate E].
  exists s. split.
  - eapply (reachable_step quiet (CCreateSimple 7 [] [] [] [])); [exists tt; apply h_refl| |exact E].
    simpl. split; [reflexivity|]. split; [reflexivity|]. repeat constructor.
  - vm_compute in E. injection E as <-. split; [eexists; reflexivity|reflexivity].
Qed.

(** ** the hypotheses can be met *)
(** argument 1, node 10 (input 2 from 1, output 11), node 20 (input 3 from 11,
    output 21, dead), result 4 from 11 *)
Definition example_commands : list command :=
  [CAddArgument 1 5; CCreateSimple 10 [5] [1] [2] [(11, 5)]; CCreateSimple 20 [5] [11] [3] [(21, 6)]; CAddResult 4 11 5; CAddOutput 10 12 5].
Fixpoint run (l : list command) (s : region * unit) : option (region * unit) :=
  match l with [] => Some s | c :: l => match exec quiet c s with Ok s => run l s | _ => None end end.
Fixpoint all_legal (l : list command) (s : region * unit) : Prop :=
  match l with [] => True | c :: l => legal c s.1 /\ match exec quiet c s with Ok s => all_legal l s | _ => False end end.
Lemma run_history l : forall s s' s0, history quiet s0 s -> all_legal l s -> run l s = Some s' -> history quiet s0 s'.
Proof.
  induction l as [|c l IH]; intros s s' s0 H HL E; simpl in *; [now injection E as <-|]. destruct HL as [HL1 HL2].
  destruct (exec quiet c s) as [s1|s1|] eqn:Ec; [|discriminate|discriminate]. eapply IH; [|exact HL2|exact E]. eapply h_step; eauto.
Qed.
Lemma example_legal : all_legal example_commands (empty_region, tt).
Proof. vm_compute. repeat (split || constructor); try (intros K; inversion K; fail); try (eexists; reflexivity). Qed.
Definition example_check (s : region * unit) : bool :=
  bool_decide (size (nodes s.1) = 2 /\ il_elems (top s.1) = [] /\ il_elems (bottom s.1) = [20] /\ users_of s.1 11 = [3; 4]) &&
  match prune quiet s with Some s' => bool_decide (is_Some (nodes s'.1 !! 10) /\ nodes s'.1 !! 20 = None /\ users_of s'.1 11 = [4]) | None => false end &&
  match divert_users quiet 11 12 s with Ok s' => bool_decide (users_of s'.1 12 = [3; 4]) | _ => false end &&
  match exec quiet (CDivertTo 3 21) s with Throws s' => true | _ => false end.
Lemma example_checked : match run example_commands (empty_region, tt) with Some s => example_check s | None => false end = true.
Proof. vm_compute. reflexivity. Qed.
Example example_region : exists s, reachable quiet s /\
  size (nodes s.1) = 2 /\ il_elems (top s.1) = [] /\ il_elems (bottom s.1) = [20] /\ users_of s.1 11 = [3; 4] /\
  (exists s', prune quiet s = Some s' /\ is_node s'.1 10 /\ ~ is_node s'.1 20 /\ users_of s'.1 11 = [4]) /\
  (exists s', divert_users quiet 11 12 s = Ok s' /\ users_of s'.1 12 = [3; 4]) /\
  (exists s', exec quiet (CDivertTo 3 21) s = Throws s').
Proof.
  pose proof example_checked as K. destruct (run example_commands (empty_region, tt)) as [s|] eqn:E; [|discriminate K].
  exists s. split; [exists tt; eapply run_history; [apply h_refl|apply example_legal|exact E]|]. unfold example_check in K.
  apply andb_true_iff in K as [K K4]. apply andb_true_iff in K as [K K3]. apply andb_true_iff in K as [K1 K2].
  apply bool_decide_eq_true in K1 as (K1 & K5 & K6 & K7). split; [assumption|]. split; [assumption|]. split; [assumption|]. split; [assumption|]. split; [|split].
  - destruct (prune quiet s) as [s'|]; [|discriminate]. exists s'. apply bool_decide_eq_true in K2 as (A & B & C). split; [reflexivity|]. split; [exact A|]. split; [|exact C]. intros [nd D]. congruence.
  - destruct (divert_users quiet 11 12 s) as [s'| |]; [|discriminate..]. exists s'. split; [reflexivity|]. now apply bool_decide_eq_true in K3.
  - destruct (exec quiet (CDivertTo 3 21) s) as [|s'|]; [discriminate| |discriminate]. eauto.
Qed.
(** Acyclic regions: when every node uses only outputs of nodes with smaller ids
    (as after any history without divert_to, divert_users and late inputs). *)
Definition uses_smaller (s : region) (x : input) : bool :=
  match in_owner x, in_origin x with
  | ONode m, Some o =>
    match outputs s !! o with
    | Some y => match out_owner y with
                | ONode n => match nodes s !! n, nodes s !! m with Some a, Some b => bool_decide (nd_id a < nd_id b) | _, _ => false end
                | ORegion => true end
    | None => true end
  | _, _ => true end.
Lemma acyclic_ids s : Inv s -> map_Forall (fun _ x => uses_smaller s x = true) (inputs s) -> acyclic s.
Proof.
  intros HI H.
  assert (forall m n, uses s m n -> exists a b, nodes s !! n = Some a /\ nodes s !! m = Some b /\ nd_id a < nd_id b) as K.
  { intros m n (nd & i & o & x & Hn & Ho & Hx & Hxo & Hm). specialize (H i x Hx). unfold uses_smaller in H. rewrite Hm, Hxo in H.
    destruct (user_origin _ _ _ _ HI Hx Hxo) as (_ & y & Hy & _). rewrite Hy in H. rewrite (OwnO_arg_not_node _ _ _ _ _ (k_o _ _ (v_core _ HI)) Hy Hn Ho) in H.
    rewrite Hn in H. destruct (nodes s !! m) as [b|]; [|discriminate]. apply bool_decide_eq_true in H. eauto. }
  assert (forall k n a, nodes s !! n = Some a -> next_id s - nd_id a <= k -> Acc (uses s) n) as L.
  { induction k as [|k IH]; intros n a Hn Hk.
    - pose proof (proj1 (v_id _ HI) n a Hn). lia.
    - constructor. intros m Hu. destruct (K m n Hu) as (a' & b & Ha & Hb & Hlt). assert (a' = a) as -> by congruence. apply (IH m b Hb).
      pose proof (proj1 (v_id _ HI) m b Hb). lia. }
  intros n. destruct (nodes s !! n) as [a|] eqn:Hn; [exact (L _ n a Hn (le_n _))|]. constructor. intros m (nd & _ & _ & _ & Hn' & _). congruence.
Qed.
Lemma example_ids : match run example_commands (empty_region, tt) with Some s => bool_decide (map_Forall (fun _ x => uses_smaller s.1 x = true) (inputs s.1)) | None => false end = true.
Proof. vm_compute. reflexivity. Qed.
Example example_acyclic : exists s, reachable quiet s /\ acyclic s.1 /\ run example_commands (empty_region, tt) = Some s.
Proof.
  pose proof example_ids as K. destruct (run example_commands (empty_region, tt)) as [s|] eqn:E; [|discriminate K].
  assert (reachable quiet s) as R by (exists tt; eapply run_history; [apply h_refl|apply example_legal|exact E]).
  exists s. split; [exact R|]. split; [|reflexivity]. apply bool_decide_eq_true in K. exact (acyclic_ids _ (reachable_Inv _ _ R) K).
Qed.
