(** Creation of nodes. *)
From stdpp Require Import base list gmap.
From Verif.Region Require Import Model Spec Proofs Proofs2 Proofs3 Proofs4 Proofs5 Proofs6.

(** [s'] is [s] with the inputs [ni] appended to node [p] *)
Record grown (p : ptr) (ni : list ptr) (s s' : region) : Prop := {
  g_p : forall nd, nodes s !! p = Some nd -> exists nd', nodes s' !! p = Some nd' /\ nd_inputs nd' = nd_inputs nd ++ ni /\ nd_outputs nd' = nd_outputs nd /\ nd_id nd' = nd_id nd;
  g_n : forall n, n <> p -> shape_node <$> nodes s' !! n = shape_node <$> nodes s !! n;
  g_o : forall o, shape_out <$> outputs s' !! o = shape_out <$> outputs s !! o;
  g_i : forall j, j ∉ ni -> inputs s' !! j = inputs s !! j;
  g_u : forall o j, j ∉ ni -> (j ∈ users_of s' o <-> j ∈ users_of s o);
  g_args : args s' = args s; g_res : results s' = results s; g_id : next_id s' = next_id s }.
Lemma grown_refl p s : grown p [] s s.
Proof. constructor; try reflexivity. intros nd H. exists nd. rewrite app_nil_r. auto. Qed.
Lemma grown_trans p a b s t u : grown p a s t -> grown p b t u -> grown p (a ++ b) s u.
Proof.
  intros [A1 A2 A3 A4 A5 A6 A7 A8] [B1 B2 B3 B4 B5 B6 B7 B8]. constructor; try congruence.
  - intros nd H. destruct (A1 nd H) as (nd1 & H1 & E1 & E2 & E3). destruct (B1 nd1 H1) as (nd2 & H2 & F1 & F2 & F3).
    exists nd2. split; [assumption|]. rewrite F1, E1, app_assoc. split; [reflexivity|]. split; congruence.
  - intros n Hn. rewrite B2 by assumption. auto.
  - intros j Hj. rewrite not_elem_of_app in Hj. rewrite B4 by tauto. apply A4. tauto.
  - intros o j Hj. rewrite not_elem_of_app in Hj. rewrite B5 by tauto. apply A5. tauto.
Qed.
Lemma check_types_shape o ty s s' : shape_out <$> outputs s' !! o = shape_out <$> outputs s !! o -> check_types o ty s' = check_types o ty s.
Proof.
  unfold check_types. intros H. destruct (outputs s' !! o) as [y'|], (outputs s !! o) as [y|]; try discriminate; [|reflexivity].
  simpl in H. assert (shape_out y' = shape_out y) as K by congruence. apply shape_out_inv in K as (_ & _ & ->). reflexivity.
Qed.
Section Ops.
  Context {T : Type} (obs : event -> region -> T -> T).

  Definition wanted (p base : nat) (s' : region) (l : list (ptr * ptr * nat)) : Prop :=
    forall k i o ty, l !! k = Some (i, o, ty) ->
      inputs s' !! i = Some {| in_owner := ONode p; in_origin := Some o; in_index := base + k; in_type := ty |}.
  Definition typed (s : region) (l : list (ptr * ptr * nat)) : Prop := Forall (fun '(_, o, ty) => check_types o ty s = true) l.
  Lemma add_inputs_ok p l : forall (s : region * T) nd, Inv s.1 -> nodes s.1 !! p = Some nd -> NoDup (map (fun x => x.1.1) l) ->
    Forall (fresh_input s.1) (map (fun x => x.1.1) l) ->
    match add_inputs obs p l s with
    | Ok s' => Inv s'.1 /\ grown p (map (fun x => x.1.1) l) s.1 s'.1 /\ s'.2 = s.2 /\ typed s.1 l /\ wanted p (length (nd_inputs nd)) s'.1 l
    | Throws s' => Inv s'.1 /\ s'.2 = s.2 /\ ~ typed s.1 l /\ exists ni, grown p ni s.1 s'.1 /\ Forall (fresh_input s.1) ni
    | UB => False
    end.
  Proof.
    induction l as [|[[i o] ty] l IH]; intros s nd HI Hp Hnd Hf.
    - simpl. split; [assumption|]. split; [apply grown_refl|]. split; [reflexivity|]. split; [constructor|]. intros k i o ty H. discriminate.
    - cbn [map add_inputs fst] in *. apply NoDup_cons in Hnd as [Hni Hnd]. apply Forall_cons in Hf as [Hfi Hf].
      pose proof (add_input_ok obs p i o ty false s nd HI Hp Hfi) as A.
      destruct (add_input obs p i o ty false s) as [s1|s1|]; [| |contradiction].
      + destruct A as (HI1 & Hc & (nd1 & Hp1 & E1 & E2 & E3) & Hn & Ho & Hin & Ha & Hr & Hid & Hu & Hobs).
        assert (grown p [i] s.1 s1.1) as HG.
        { constructor; try assumption.
          - intros nd0 H0. rewrite Hp in H0. injection H0 as <-. eauto.
          - intros j Hj. rewrite Hin. apply lookup_insert_ne. intros ->. apply Hj. now left.
          - intros o' j Hj. rewrite Hu. case_decide as D; [|reflexivity]. subst o'. rewrite elem_of_app. split; [intros [H|H]; [assumption|contradiction]|tauto]. }
        specialize (IH s1 nd1 HI1 Hp1 Hnd).
        assert (Forall (fresh_input s1.1) (map (fun x => x.1.1) l)) as Hf1.
        { rewrite Forall_forall in *. intros j Hj. unfold fresh_input. rewrite (g_i _ _ _ _ HG); [apply Hf; assumption|].
          intros K. apply elem_of_list_singleton in K. subst. contradiction. }
        specialize (IH Hf1). destruct (add_inputs obs p l s1) as [s2|s2|]; [| |contradiction].
        * destruct IH as (HI2 & HG2 & Hs2 & Ht2 & Hw2). split; [assumption|]. split; [exact (grown_trans _ _ _ _ _ _ HG HG2)|]. split; [congruence|]. split.
          -- constructor; [assumption|]. unfold typed in *. rewrite Forall_forall in *. intros [[i' o'] ty'] H. pose proof (Ht2 _ H) as K. simpl in K. rewrite (check_types_shape o' ty' s.1) in K; [assumption|]. apply Ho.
          -- intros [|k] i' o' ty' H.
             ++ simpl in H. injection H as <- <- <-. rewrite (g_i _ _ _ _ HG2) by assumption. rewrite Hin, lookup_insert, Nat.add_0_r. reflexivity.
             ++ simpl in H. rewrite (Hw2 k i' o' ty' H). rewrite E1, app_length. simpl. do 2 f_equal. lia.
        * destruct IH as (HI2 & Hs2 & Ht2 & ni & HG2 & Hfn). split; [assumption|]. split; [congruence|]. split.
          -- intros H. apply Ht2. apply Forall_cons in H as [_ H]. unfold typed in *. rewrite Forall_forall in *. intros [[i' o'] ty'] Hin'. pose proof (H _ Hin') as K. simpl in *.
             rewrite (check_types_shape o' ty' s.1); [assumption|]. apply Ho.
          -- exists (i :: ni). split; [exact (grown_trans _ [i] ni _ _ _ HG HG2)|]. constructor; [assumption|]. rewrite Forall_forall in *. intros j Hj.
             specialize (Hfn j Hj). unfold fresh_input in *. rewrite Hin in Hfn. apply lookup_insert_None in Hfn. tauto.
      + destruct A as [-> Hc]. split; [assumption|]. split; [reflexivity|]. split.
        * intros H. apply Forall_cons in H as [H _]. congruence.
        * exists []. split; [apply grown_refl|constructor].
  Qed.

  Lemma add_outputs_ok p l : forall (s : region * T) nd, Inv s.1 -> nodes s.1 !! p = Some nd -> NoDup (map fst l) -> Forall (fresh_output s.1) (map fst l) ->
    exists s', add_outputs p l s = Some s' /\ Inv s'.1 /\ s'.2 = s.2 /\
      nodes s'.1 = <[p := with_outputs (nd_outputs nd ++ map fst l) nd]> (nodes s.1) /\
      inputs s'.1 = inputs s.1 /\ args s'.1 = args s.1 /\ results s'.1 = results s.1 /\ next_id s'.1 = next_id s.1 /\
      (forall o, o ∉ map fst l -> outputs s'.1 !! o = outputs s.1 !! o) /\
      (forall k o ty, l !! k = Some (o, ty) ->
         outputs s'.1 !! o = Some {| out_owner := ONode p; out_users := []; out_nusers := 0; out_index := length (nd_outputs nd) + k; out_type := ty |}).
  Proof.
    induction l as [|[o ty] l IH]; intros s nd HI Hp Hnd Hf.
    - exists s. cbn [map add_outputs]. rewrite app_nil_r. split; [reflexivity|]. split; [assumption|]. split; [reflexivity|]. split.
      { symmetry. apply insert_id. rewrite Hp. now destruct nd. }
      do 5 (split; [reflexivity|]). intros k o ty H. discriminate.
    - cbn [map add_outputs fst] in *. apply NoDup_cons in Hnd as [Hni Hnd]. apply Forall_cons in Hf as [Hfi Hf].
      destruct (add_output_ok p o ty s nd HI Hp Hfi) as (s1 & E & HI1 & Hs1 & Hn1 & Hin1 & Ha1 & Hr1 & Hid1 & Ho1). rewrite E. simpl.
      assert (nodes s1.1 !! p = Some (with_outputs (nd_outputs nd ++ [o]) nd)) as Hp1 by (rewrite Hn1; apply lookup_insert).
      destruct (IH s1 _ HI1 Hp1 Hnd) as (s2 & E2 & HI2 & Hs2 & Hn2 & Hin2 & Ha2 & Hr2 & Hid2 & Ho2 & Hw2).
      { rewrite Forall_forall in *. intros j Hj. unfold fresh_output. rewrite Ho1, lookup_insert_ne; [apply Hf; assumption|]. intros ->. contradiction. }
      exists s2. split; [assumption|]. split; [assumption|]. split; [congruence|]. split.
      { rewrite Hn2, Hn1, insert_insert. f_equal. unfold with_outputs. simpl. now rewrite <- app_assoc. }
      do 4 (split; [congruence|]). split.
      + intros o' Ho'. rewrite not_elem_of_cons in Ho'. rewrite Ho2 by tauto. rewrite Ho1. apply lookup_insert_ne. intros ->. tauto.
      + intros [|k] o' ty' H; simpl in H.
        * injection H as <- <-. rewrite Ho2 by assumption. rewrite Ho1, lookup_insert, Nat.add_0_r. reflexivity.
        * rewrite (Hw2 k o' ty' H). simpl. rewrite app_length. simpl. do 2 f_equal. lia.
  Qed.

  Lemma unwind_ok p ni s0 (s : region * T) nd0 : Inv s0 -> nodes s0 !! p = Some nd0 -> nd_inputs nd0 = [] -> nd_outputs nd0 = [] ->
    Inv s.1 -> grown p ni s0 s.1 -> Forall (fresh_input s0) ni ->
    exists s', unwind p s = Throws s' /\ Inv s'.1 /\ s'.2 = s.2 /\ nodes s'.1 !! p = None /\ inputs s'.1 = inputs s0 /\
      (forall n, n <> p -> shape_node <$> nodes s'.1 !! n = shape_node <$> nodes s0 !! n) /\
      (forall o, shape_out <$> outputs s'.1 !! o = shape_out <$> outputs s0 !! o) /\
      (forall o j, j ∈ users_of s'.1 o <-> j ∈ users_of s0 o) /\ args s'.1 = args s0 /\ results s'.1 = results s0.
  Proof.
    intros HI0 Hp0 Ei Eo HI HG Hf. destruct (g_p _ _ _ _ HG nd0 Hp0) as (nd & Hp & E1 & E2 & E3). rewrite Ei in E1. rewrite Eo in E2. simpl in E1.
    destruct (node_dtor_ok p nd s.1 HI Hp) as (r & Er & HIr & Hnone & Hn & Ho & Hin & Hu & Ha & Hr & Hid).
    { rewrite (b_succ _ (k_b _ _ (v_core _ HI)) p nd Hp), E2. reflexivity. }
    unfold unwind, lift. rewrite Er. simpl. eexists. split; [reflexivity|]. simpl. split; [assumption|]. split; [reflexivity|]. split; [assumption|].
    rewrite Forall_forall in Hf. split; [|split; [|split; [|split]]].
    - rewrite Hin, E1. apply map_eq. intros j. rewrite lookup_foldr_delete. case_decide as D.
      + symmetry. apply Hf. assumption.
      + apply (g_i _ _ _ _ HG). assumption.
    - intros n Hne. rewrite Hn by assumption. apply (g_n _ _ _ _ HG). assumption.
    - intros o. rewrite Ho, E2. rewrite decide_False by (intros X; inversion X). apply (g_o _ _ _ _ HG).
    - intros o j. rewrite Hu, E1. destruct (decide (j ∈ ni)) as [D|D].
      + split; [tauto|]. intros K. exfalso. unfold users_of in K. destruct (outputs s0 !! o) as [y|] eqn:Hy; [|inversion K].
        destruct (e_users _ _ (k_e _ _ (v_core _ HI0)) o y j Hy K) as (x & Hx & _). pose proof (Hf j D) as F. unfold fresh_input in F. congruence.
      + rewrite (g_u _ _ _ _ HG) by assumption. tauto.
    - rewrite Ha, Hr. split; [apply (g_args _ _ _ _ HG)|apply (g_res _ _ _ _ HG)].
  Qed.

  Lemma zip_fst_fst {A B C} (a : list A) : forall (b : list B) (c : list C), length a = length b -> length b = length c -> map (fun x => x.1.1) (zip (zip a b) c) = a.
  Proof. induction a as [|x a IH]; intros [|y b] [|z c] H1 H2; simpl in *; try discriminate; [reflexivity|]. f_equal. apply IH; lia. Qed.

  Lemma create_simple_ok p tys ops ins outs (s : region * T) : Inv s.1 -> legal (CCreateSimple p tys ops ins outs) s.1 ->
    match create_simple obs p tys ops ins outs s with
    | Ok s' => Inv s'.1 /\ length tys = length ops /\
        (forall k o ty, ops !! k = Some o -> tys !! k = Some ty -> check_types o ty s.1 = true) /\
        (exists nd, nodes s'.1 !! p = Some nd /\ nd_inputs nd = ins /\ nd_outputs nd = map fst outs /\ nd_id nd = next_id s.1) /\
        (forall k i o ty, ins !! k = Some i -> ops !! k = Some o -> tys !! k = Some ty ->
           inputs s'.1 !! i = Some {| in_owner := ONode p; in_origin := Some o; in_index := k; in_type := ty |}) /\
        (forall k o ty, outs !! k = Some (o, ty) ->
           outputs s'.1 !! o = Some {| out_owner := ONode p; out_users := []; out_nusers := 0; out_index := k; out_type := ty |}) /\
        (forall n, n <> p -> shape_node <$> nodes s'.1 !! n = shape_node <$> nodes s.1 !! n) /\
        (forall o, o ∉ map fst outs -> shape_out <$> outputs s'.1 !! o = shape_out <$> outputs s.1 !! o) /\
        (forall i, i ∉ ins -> inputs s'.1 !! i = inputs s.1 !! i) /\
        args s'.1 = args s.1 /\ results s'.1 = results s.1 /\ next_id s'.1 = S (next_id s.1) /\
        s'.2 = obs (ENodeCreate p) s'.1 s.2
    | Throws s' => Inv s'.1 /\ same_graph s.1 s'.1 /\ s'.2 = s.2 /\
        (length tys <> length ops \/ exists k o ty, ops !! k = Some o /\ tys !! k = Some ty /\ check_types o ty s.1 = false)
    | UB => False
    end.
  Proof.
    intros HI (Hp & Hlen & Hnd & Hfi & Hndo & Hfo). unfold create_simple.
    destruct (node_ctor_ok p s.1 HI Hp) as (r & Er & HIr & Hn & Hin & Ho & Ha & Hr & Hid).
    unfold lift at 1. rewrite Er. cbn [mbind option_bind].
    set (nd0 := {| nd_id := next_id s.1; nd_inputs := []; nd_outputs := []; nd_succ := 0 |}) in *.
    assert (nodes r !! p = Some nd0) as Hp0 by (rewrite Hn; apply lookup_insert).
    assert (forall s', nodes s' !! p = None -> inputs s' = inputs r -> (forall n, n <> p -> shape_node <$> nodes s' !! n = shape_node <$> nodes r !! n) ->
      (forall o, shape_out <$> outputs s' !! o = shape_out <$> outputs r !! o) -> (forall o j, j ∈ users_of s' o <-> j ∈ users_of r o) -> args s' = args r -> results s' = results r -> same_graph s.1 s') as K.
    { intros s' A1 A2 A3 A4 A5 A6 A7. constructor; try congruence.
      - intros n. destruct (decide (n = p)) as [->|D]; [now rewrite A1, Hp|]. rewrite A3, Hn by assumption. now rewrite lookup_insert_ne by auto.
      - intros o j. rewrite A5. unfold users_of. now rewrite Ho. }
    destruct (decide (length tys = length ops)) as [Hl|Hl].
    - assert (map (fun x => x.1.1) (zip (zip ins ops) tys) = ins) as Hz by (apply zip_fst_fst; lia).
      pose proof (add_inputs_ok p (zip (zip ins ops) tys) (r, s.2) nd0 HIr Hp0) as A. rewrite Hz in A.
      assert (Forall (fresh_input r) ins) as Hfr by (unfold fresh_input in *; now rewrite Hin).
      specialize (A Hnd Hfr).
      assert (forall k o ty, ops !! k = Some o -> tys !! k = Some ty -> exists i, ins !! k = Some i /\ zip (zip ins ops) tys !! k = Some (i, o, ty)) as Z.
      { intros k o ty E1 E2. destruct (ins !! k) as [i|] eqn:E3.
        - exists i. split; [reflexivity|]. rewrite !lookup_zip_with, E1, E2, E3. reflexivity.
        - apply lookup_ge_None in E3. apply lookup_lt_Some in E1. lia. }
      destruct (add_inputs obs p (zip (zip ins ops) tys) (r, s.2)) as [s1|s1|]; [| |contradiction].
      + destruct A as (HI1 & HG & Hs1 & Ht & Hw). simpl in HG, Hs1, Ht.
        destruct (g_p _ _ _ _ HG nd0 Hp0) as (nd1 & Hp1 & E1 & E2 & E3). simpl in E1, E2, E3.
        destruct (add_outputs_ok p outs s1 nd1 HI1 Hp1 Hndo) as (s2 & Es2 & HI2 & Hs2 & Hn2 & Hin2 & Ha2 & Hr2 & Hid2 & Ho2 & Hw2).
        { rewrite Forall_forall in *. intros o Hoo. specialize (Hfo o Hoo). unfold fresh_output in *. pose proof (g_o _ _ _ _ HG o) as G. rewrite Ho, Hfo in G.
          destruct (outputs s1.1 !! o); [discriminate|reflexivity]. }
        rewrite Es2. simpl. split; [assumption|]. split; [assumption|]. split; [|split; [|split; [|split; [|split; [|split; [|split; [|split; [|split; [|split]]]]]]]]].
        * intros k o ty F1 F2. destruct (Z k o ty F1 F2) as (i & _ & F3). unfold typed in Ht. rewrite Forall_forall in Ht. pose proof (Ht _ (elem_of_list_lookup_2 _ _ _ F3)) as F4. simpl in F4.
          rewrite <- F4. apply check_types_shape. now rewrite Ho.
        * eexists. rewrite Hn2, lookup_insert. split; [reflexivity|]. simpl. rewrite E1, E2. auto.
        * intros k i o ty F0 F1 F2. destruct (Z k o ty F1 F2) as (i' & F3 & F4). assert (i' = i) as -> by congruence. rewrite Hin2. exact (Hw k i o ty F4).
        * intros k o ty F. rewrite (Hw2 k o ty F), E2. reflexivity.
        * intros n Hne. rewrite Hn2, lookup_insert_ne by auto. rewrite (g_n _ _ _ _ HG) by assumption. now rewrite Hn, lookup_insert_ne by auto.
        * intros o Hoo. rewrite Ho2 by assumption. rewrite (g_o _ _ _ _ HG). now rewrite Ho.
        * intros i Hii. rewrite Hin2, (g_i _ _ _ _ HG) by assumption. now rewrite Hin.
        * rewrite Ha2, (g_args _ _ _ _ HG). assumption.
        * rewrite Hr2, (g_res _ _ _ _ HG). assumption.
        * rewrite Hid2, (g_id _ _ _ _ HG). assumption.
        * now rewrite Hs2, Hs1.
      + destruct A as (HI1 & Hs1 & Ht & ni & HG & Hfn). simpl in *.
        destruct (unwind_ok p ni r s1 nd0 HIr Hp0 eq_refl eq_refl HI1 HG Hfn) as (s2 & Es2 & HI2 & Hs2 & B1 & B2 & B3 & B4 & B5 & B6 & B7).
        rewrite Es2. split; [assumption|]. split; [apply K; assumption|]. split; [congruence|]. right.
        apply not_Forall_Exists in Ht. 2:{ intros [[i o] ty]. apply _. }
        apply Exists_exists in Ht as ([[i o] ty] & Hin' & Hc). apply elem_of_list_lookup in Hin' as [k Hk].
        rewrite !lookup_zip_with in Hk. destruct (ins !! k); [|discriminate]. destruct (ops !! k) as [o'|] eqn:F1; [|discriminate]. destruct (tys !! k) as [ty'|] eqn:F2; [|discriminate].
        simpl in Hk. injection Hk as <- <- <-. exists k, o', ty'. split; [assumption|]. split; [assumption|].
        simpl in Hc. apply not_true_is_false in Hc. rewrite <- Hc. symmetry. apply check_types_shape. now rewrite Ho.
    - destruct (unwind_ok p [] r (r, s.2) nd0 HIr Hp0 eq_refl eq_refl HIr (grown_refl p r) ltac:(constructor)) as (s2 & Es2 & HI2 & Hs2 & B1 & B2 & B3 & B4 & B5 & B6 & B7).
      rewrite Es2. split; [assumption|]. split; [apply K; assumption|]. split; [exact Hs2|]. now left.
  Qed.

  Lemma create_structural_ok p nsub (s : region * T) : Inv s.1 -> nodes s.1 !! p = None ->
    match create_structural obs p nsub s with
    | Ok s' => Inv s'.1 /\ nsub <> 0 /\ nodes s'.1 = <[p := {| nd_id := next_id s.1; nd_inputs := []; nd_outputs := []; nd_succ := 0 |}]> (nodes s.1) /\
        inputs s'.1 = inputs s.1 /\ outputs s'.1 = outputs s.1 /\ args s'.1 = args s.1 /\ results s'.1 = results s.1 /\ next_id s'.1 = S (next_id s.1) /\
        s'.2 = obs (ENodeCreate p) s'.1 s.2
    | Throws s' => Inv s'.1 /\ same_graph s.1 s'.1 /\ s'.2 = s.2 /\ nsub = 0
    | UB => False
    end.
  Proof.
    intros HI Hp. unfold create_structural.
    destruct (node_ctor_ok p s.1 HI Hp) as (r & Er & HIr & Hn & Hin & Ho & Ha & Hr & Hid).
    unfold lift at 1. rewrite Er. cbn [mbind option_bind].
    set (nd0 := {| nd_id := next_id s.1; nd_inputs := []; nd_outputs := []; nd_succ := 0 |}) in *.
    assert (nodes r !! p = Some nd0) as Hp0 by (rewrite Hn; apply lookup_insert).
    destruct (decide (nsub = 0)) as [Hz|Hz].
    - destruct (unwind_ok p [] r (r, s.2) nd0 HIr Hp0 eq_refl eq_refl HIr (grown_refl p r) ltac:(constructor)) as (s2 & Es2 & HI2 & Hs2 & B1 & B2 & B3 & B4 & B5 & B6 & B7).
      rewrite Es2. split; [assumption|]. split; [|split; [exact Hs2|assumption]]. constructor; try congruence.
      + intros n. destruct (decide (n = p)) as [->|D]; [now rewrite B1, Hp|]. rewrite B3, Hn by assumption. now rewrite lookup_insert_ne by auto.
      + intros o j. rewrite B5. unfold users_of. now rewrite Ho.
    - simpl. auto 10.
  Qed.
End Ops.
