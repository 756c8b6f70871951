(** C17: effects of the remaining editing operations *)
From stdpp Require Import base list gmap.
From Verif.Region Require Import Model Spec Proofs Proofs2 Proofs3 Proofs4 Proofs5 Proofs6 Proofs7 Proofs8 Proofs9 Properties.

Section Properties.
  Context {T : Type} (obs : event -> region -> T -> T).

  (** RemoveArguments removes exactly the dead arguments with the given indices,
      PruneArguments exactly the dead arguments; the others keep order and users. *)
  Theorem remove_arguments_effect s ix : reachable obs s ->
    exists s', remove_arguments ix s = Some s' /\ args s'.1 `sublist_of` args s.1 /\
      (forall k a, args s.1 !! k = Some a -> (a ∈ args s'.1 <-> ~ (k ∈ ix /\ users_of s.1 a = []))) /\
      (forall o, users_of s'.1 o = users_of s.1 o) /\ inputs s'.1 = inputs s.1 /\ nodes s'.1 = nodes s.1 /\ results s'.1 = results s.1.
  Proof.
    intros H. pose proof (reachable_Inv _ _ H) as HI. unfold remove_arguments. destruct (decide (ix = [])) as [->|Hix].
    { exists s. split; [reflexivity|]. split; [reflexivity|]. split; [|auto]. intros k a Hk. split; [|intros _; eapply elem_of_list_lookup_2; eassumption]. intros _ [K _]. inversion K. }
    destruct (remove_args_ok false ix s HI) as (s' & live & E & HI' & _ & El & Hsub & A & U & R). exists s'. split; [exact E|]. rewrite El. split; [assumption|]. split; [|auto].
    intros k a Hk. rewrite (A a) by (eapply elem_of_list_lookup_2; eassumption). apply (o_arg _ (k_o _ _ (v_core _ HI))) in Hk as (y & Hy & _ & Ei).
    assert (users_of s.1 a = out_users y) as Eu by (unfold users_of; now rewrite Hy). rewrite Eu. split; intros G K; apply G.
    - destruct K. exists y. split; [assumption|]. split; [assumption|]. right. congruence.
    - destruct K as (y' & Hy' & K1 & K2). assert (y' = y) as -> by congruence. destruct K2 as [K2|K2]; [discriminate|]. split; [congruence|assumption].
  Qed.
  Theorem prune_arguments_effect s : reachable obs s ->
    exists s', prune_arguments s = Some s' /\ args s'.1 `sublist_of` args s.1 /\
      (forall a, a ∈ args s'.1 <-> a ∈ args s.1 /\ users_of s.1 a <> []) /\
      (forall o, users_of s'.1 o = users_of s.1 o) /\ inputs s'.1 = inputs s.1 /\ nodes s'.1 = nodes s.1 /\ results s'.1 = results s.1.
  Proof.
    intros H. pose proof (reachable_Inv _ _ H) as HI. unfold prune_arguments.
    destruct (remove_args_ok true [] s HI) as (s' & live & E & HI' & _ & El & Hsub & A & U & R). exists s'. split; [exact E|]. rewrite El. split; [assumption|]. split; [|auto].
    intros a. destruct (decide (a ∈ args s.1)) as [Ha|Ha].
    - rewrite (A a Ha). destruct (args_outputs _ a (k_o _ _ (v_core _ HI)) Ha) as [y Hy]. assert (users_of s.1 a = out_users y) as Eu by (unfold users_of; now rewrite Hy). rewrite Eu. split.
      + intros G. split; [assumption|]. intros K. apply G. exists y. auto.
      + intros [_ G] (y' & Hy' & K & _). apply G. congruence.
    - split; [|tauto]. intros K. exfalso. apply Ha. exact (elem_of_sublist _ _ _ Hsub K).
  Qed.

  (** addArgument appends an argument without users; insertArgument puts it at
      the given position and throws iff that is beyond the end. *)
  Theorem insert_argument_effect s k a ty : reachable obs s -> fresh_output s.1 a ->
    match insert_argument k a ty s with
    | Ok s' => k <= length (args s.1) /\ args s'.1 = take k (args s.1) ++ a :: drop k (args s.1) /\ inputs s'.1 = inputs s.1 /\
        (forall o, users_of s'.1 o = users_of s.1 o) /\ nodes s'.1 = nodes s.1 /\ (exists y, outputs s'.1 !! a = Some y /\ out_type y = ty)
    | Throws s' => s' = s /\ length (args s.1) < k
    | UB => False
    end.
  Proof.
    intros H Ha. pose proof (reachable_Inv _ _ H) as HI. pose proof (insert_argument_ok k a ty s HI Ha) as A. unfold insert_argument in *.
    destruct (decide (length (args s.1) < k)); [exact A|]. pose proof (args_nodup _ (k_o _ _ (v_core _ HI))) as Hnd.
    destruct (shift_arguments_ok (drop k (args s.1)) k s.1) as (m & E & H1 & H2).
    { rewrite <- (take_drop k (args s.1)) in Hnd. apply NoDup_app in Hnd as (_ & _ & K). exact K. }
    { intros o Ho. apply args_outputs; [apply HI|]. rewrite <- (take_drop k (args s.1)). apply elem_of_app. now right. }
    rewrite E in A |- *. destruct A as (A0 & A1 & A2 & A3 & _). split; [assumption|]. split; [assumption|]. split; [assumption|]. split; [|split; [reflexivity|]].
    - intros o. unfold users_of. simpl. destruct (decide (o = a)) as [->|D].
      + rewrite lookup_insert. unfold fresh_output in Ha. now rewrite Ha.
      + rewrite lookup_insert_ne by auto. destruct (decide (o ∈ drop k (args s.1))) as [Do|Do].
        * apply elem_of_list_lookup in Do as [j Hj]. destruct (H2 j o Hj) as (y & Hy & Hm). now rewrite Hy, Hm.
        * now rewrite (H1 o Do).
    - simpl. rewrite lookup_insert. eauto.
  Qed.
  Theorem add_argument_effect s a ty : reachable obs s -> fresh_output s.1 a ->
    let s' := add_argument a ty s in
    args s'.1 = args s.1 ++ [a] /\ inputs s'.1 = inputs s.1 /\ nodes s'.1 = nodes s.1 /\
    (forall o, users_of s'.1 o = users_of s.1 o) /\ (exists y, outputs s'.1 !! a = Some y /\ out_type y = ty /\ out_index y = length (args s.1)).
  Proof.
    intros H Ha s'. split; [reflexivity|]. split; [reflexivity|]. split; [reflexivity|]. split.
    - intros o. unfold users_of. simpl. destruct (decide (o = a)) as [->|D]; [|now rewrite lookup_insert_ne by auto]. rewrite lookup_insert. unfold fresh_output in Ha. now rewrite Ha.
    - simpl. rewrite lookup_insert. eauto.
  Qed.

  (** addResult and addInput append an input that uses the given output, and throw
      iff that output is not in the region or has another type. *)
  Theorem add_result_effect s i o ty : reachable obs s -> fresh_input s.1 i ->
    match add_result obs i o ty s with
    | Ok s' => (exists y, outputs s.1 !! o = Some y /\ out_type y = ty) /\ results s'.1 = results s.1 ++ [i] /\
        inputs s'.1 = <[i := {| in_owner := ORegion; in_origin := Some o; in_index := length (results s.1); in_type := ty |}]> (inputs s.1) /\
        (forall o', users_of s'.1 o' = if decide (o' = o) then users_of s.1 o ++ [i] else users_of s.1 o') /\
        (forall n, shape_node <$> nodes s.1 !! n = shape_node <$> nodes s'.1 !! n) /\ s'.2 = obs (EInputCreate i) s'.1 s.2
    | Throws s' => s' = s /\ ~ exists y, outputs s.1 !! o = Some y /\ out_type y = ty
    | UB => False
    end.
  Proof.
    intros H Hi. pose proof (add_result_ok obs i o ty s (reachable_Inv _ _ H) Hi) as A. destruct (add_result obs i o ty s) as [s'|s'|]; [| |contradiction].
    - destruct A as (_ & A1 & A2 & A3 & A4 & _ & A5 & _ & _ & A6). split; [|auto 10]. apply check_types_true in A1 as (y & Hy & ->). eauto.
    - destruct A as [-> A]. split; [reflexivity|]. intros (y & Hy & <-). unfold check_types in A. rewrite Hy in A. apply bool_decide_eq_false in A. contradiction.
  Qed.
  Theorem add_input_effect s p nd i o ty : reachable obs s -> nodes s.1 !! p = Some nd -> fresh_input s.1 i ->
    match add_input obs p i o ty true s with
    | Ok s' => (exists y, outputs s.1 !! o = Some y /\ out_type y = ty) /\
        (exists nd', nodes s'.1 !! p = Some nd' /\ nd_inputs nd' = nd_inputs nd ++ [i] /\ nd_outputs nd' = nd_outputs nd /\ nd_id nd' = nd_id nd) /\
        inputs s'.1 = <[i := {| in_owner := ONode p; in_origin := Some o; in_index := length (nd_inputs nd); in_type := ty |}]> (inputs s.1) /\
        (forall o', users_of s'.1 o' = if decide (o' = o) then users_of s.1 o ++ [i] else users_of s.1 o') /\
        (forall n, n <> p -> shape_node <$> nodes s'.1 !! n = shape_node <$> nodes s.1 !! n) /\ s'.2 = obs (EInputCreate i) s'.1 s.2
    | Throws s' => s' = s /\ ~ exists y, outputs s.1 !! o = Some y /\ out_type y = ty
    | UB => False
    end.
  Proof.
    intros H Hp Hi. pose proof (add_input_ok obs p i o ty true s nd (reachable_Inv _ _ H) Hp Hi) as A. destruct (add_input obs p i o ty true s) as [s'|s'|]; [| |contradiction].
    - destruct A as (_ & A1 & A2 & A3 & A4 & A5 & _ & _ & _ & A6 & A7). split; [|auto 10]. apply check_types_true in A1 as (y & Hy & ->). eauto.
    - destruct A as [-> A]. split; [reflexivity|]. intros (y & Hy & <-). unfold check_types in A. rewrite Hy in A. apply bool_decide_eq_false in A. contradiction.
  Qed.
  Theorem add_output_effect s p nd o ty : reachable obs s -> nodes s.1 !! p = Some nd -> fresh_output s.1 o ->
    exists s', add_output p o ty s = Some s' /\ nodes s'.1 !! p = Some (with_outputs (nd_outputs nd ++ [o]) nd) /\ inputs s'.1 = inputs s.1 /\
      (forall o', users_of s'.1 o' = users_of s.1 o') /\ (exists y, outputs s'.1 !! o = Some y /\ out_type y = ty) /\ (forall n, n <> p -> nodes s'.1 !! n = nodes s.1 !! n).
  Proof.
    intros H Hp Ho. destruct (add_output_ok p o ty s nd (reachable_Inv _ _ H) Hp Ho) as (s' & E & _ & _ & Hn & Hin & _ & _ & _ & Hout).
    exists s'. split; [assumption|]. split; [rewrite Hn; apply lookup_insert|]. split; [assumption|]. split; [|split].
    - intros o'. unfold users_of. rewrite Hout. destruct (decide (o' = o)) as [->|D]; [|now rewrite lookup_insert_ne by auto]. rewrite lookup_insert. unfold fresh_output in Ho. now rewrite Ho.
    - rewrite Hout, lookup_insert. eauto.
    - intros n Dn. rewrite Hn. apply lookup_insert_ne. auto.
  Qed.

  (** RemoveResults removes exactly the results with the given indices. *)
  Theorem remove_results_effect s ix : reachable obs s ->
    exists s', remove_results obs ix s = Some s' /\ results s'.1 `sublist_of` results s.1 /\
      (forall k i, results s.1 !! k = Some i -> (i ∈ results s'.1 <-> k ∉ ix)) /\
      (forall k i, results s.1 !! k = Some i -> k ∈ ix -> inputs s'.1 !! i = None /\ forall o, i ∉ users_of s'.1 o) /\
      (forall n, shape_node <$> nodes s.1 !! n = shape_node <$> nodes s'.1 !! n) /\
      (forall i, i ∉ results s.1 -> inputs s'.1 !! i = inputs s.1 !! i).
  Proof.
    intros H. pose proof (reachable_Inv _ _ H) as HI. destruct (remove_results_ok obs ix s HI) as (s' & live & E & HI' & El & Hsub & A & B & _ & D & F & _ & U & _).
    assert (forall k i, results s.1 !! k = Some i -> (i ∈ live <-> k ∉ ix)) as K.
    { intros k i Hk. rewrite (A i) by (eapply elem_of_list_lookup_2; eassumption). apply (i_res _ (v_i _ HI)) in Hk as (x & Hx & _ & Ei).
      split; [intros G Hin; apply G; exists x; split; [assumption|congruence]|]. intros G (x' & Hx' & Hin). apply G. congruence. }
    exists s'. rewrite El. split; [assumption|]. split; [assumption|]. split; [exact K|]. split; [|auto].
    intros k i Hk Hin. assert (i ∈ results s.1) as G by (eapply elem_of_list_lookup_2; eassumption). assert (i ∉ live) as G' by (rewrite (K k i Hk); tauto).
    split; [now apply F|]. intros o Ho. apply U in Ho as [_ Ho]. auto.
  Qed.

  (** removeNode of a dead node removes it with its inputs and outputs, and
      nothing else. *)
  Theorem remove_node_effect s p nd : reachable obs s -> nodes s.1 !! p = Some nd -> nd_succ nd = 0 ->
    exists s', remove_node obs p s = Some s' /\ nodes s'.1 !! p = None /\
      (forall n, n <> p -> shape_node <$> nodes s'.1 !! n = shape_node <$> nodes s.1 !! n) /\
      (forall o, is_output s'.1 o <-> is_output s.1 o /\ o ∉ nd_outputs nd) /\
      (forall i, inputs s'.1 !! i = if decide (i ∈ nd_inputs nd) then None else inputs s.1 !! i) /\
      (forall o j, j ∈ users_of s'.1 o <-> j ∈ users_of s.1 o /\ j ∉ nd_inputs nd) /\
      args s'.1 = args s.1 /\ results s'.1 = results s.1 /\ s'.2 = obs (ENodeDestroy p) s.1 s.2.
  Proof.
    intros H Hp Hz. destruct (remove_node_ok obs p s nd (reachable_Inv _ _ H) Hp Hz) as (s' & E & _ & A1 & A2 & A3 & A4 & A5 & A6 & A7 & _ & A8).
    exists s'. split; [assumption|]. split; [assumption|]. split; [assumption|]. split; [|split; [|auto]].
    - intros o. pose proof (A3 o) as K. unfold is_output. case_decide as D.
      + destruct (outputs s'.1 !! o); [discriminate|]. split; [intros [? X]; discriminate|tauto].
      + destruct (outputs s'.1 !! o), (outputs s.1 !! o); try discriminate; split; try (intros [? X]; discriminate); eauto. intros [[? X] _]. discriminate.
    - intros i. rewrite A4. apply lookup_foldr_delete.
  Qed.
End Properties.
