(** Removal of inputs and results, region results. *)
From stdpp Require Import base list gmap.
From Verif.Region Require Import Model Spec Proofs Proofs2 Proofs3 Proofs4 Proofs5 Proofs6 Proofs7.

(** changing only the index of an input *)
Lemma Edges_reindex d i x k s : inputs s !! i = Some x -> Edges d s -> Edges d (set_inputs <[i := with_in_index k x]> s).
Proof.
  intros Hx [A B C D]. constructor; simpl.
  - intros j z Hz Hd. destruct (decide (j = i)) as [->|Hne].
    + rewrite lookup_insert in Hz. injection Hz as <-. exact (A i x Hx Hd).
    + rewrite lookup_insert_ne in Hz by auto. exact (A j z Hz Hd).
  - intros j z Hz Hd. destruct (decide (j = i)) as [->|Hne].
    + rewrite lookup_insert in Hz. injection Hz as <-. exact (B i x Hx Hd).
    + rewrite lookup_insert_ne in Hz by auto. exact (B j z Hz Hd).
  - intros o y j Hy Hj. destruct (C o y j Hy Hj) as (z & Hz & E). destruct (decide (j = i)) as [->|Hne].
    + rewrite lookup_insert. eexists. split; [reflexivity|]. simpl. congruence.
    + rewrite lookup_insert_ne by auto. eauto.
  - exact D.
Qed.
Lemma Core_reindex d i x k s : inputs s !! i = Some x -> Core d s -> Core d (set_inputs <[i := with_in_index k x]> s).
Proof.
  intros Hx [A B C]. constructor; [now apply Edges_reindex|apply (OwnO_frame s); auto|apply (Bottom_frame s); auto].
Qed.
Lemma same_shape_inputs f s : same_shape s (set_inputs f s).
Proof. constructor; reflexivity. Qed.

Lemma elem_of_sublist {A} (l k : list A) x : l `sublist_of` k -> x ∈ l -> x ∈ k.
Proof. intros H Hx. eapply elem_of_submseteq; [exact Hx|now apply sublist_submseteq]. Qed.

Section Ops.
  Context {T : Type} (obs : event -> region -> T -> T).

  Lemma remove_inputs_loop_ok ix l : forall live (s : region * T), Core None s.1 -> (forall i, i ∈ l -> is_input s.1 i) -> NoDup l ->
    exists s' live', remove_inputs_loop obs ix l live s = Some (s', live ++ live') /\ Core None s'.1 /\ same_shape s.1 s'.1 /\
      live' `sublist_of` l /\
      (forall j, j ∉ l -> inputs s'.1 !! j = inputs s.1 !! j) /\
      (forall j, j ∈ l -> j ∉ live' -> inputs s'.1 !! j = None /\ exists x, inputs s.1 !! j = Some x /\ in_index x ∈ ix) /\
      (forall k j, live' !! k = Some j -> exists x, inputs s.1 !! j = Some x /\ inputs s'.1 !! j = Some (with_in_index (length live + k) x) /\ in_index x ∉ ix) /\
      (forall o j, j ∈ users_of s'.1 o <-> j ∈ users_of s.1 o /\ (j ∈ l -> j ∈ live')).
  Proof.
    induction l as [|i l IH]; intros live s HC Hl Hnd.
    - exists s, []. simpl. rewrite app_nil_r. split; [reflexivity|]. split; [assumption|]. split; [apply same_shape_refl|]. split; [constructor|].
      split; [reflexivity|]. split; [intros j H; inversion H|]. split; [intros k j H; discriminate|]. intros o j. split; [intros H; split; [assumption|intros K; inversion K]|tauto].
    - apply NoDup_cons in Hnd as [Hni Hnd]. destruct (Hl i (elem_of_list_here i l)) as [x Hx]. cbn [remove_inputs_loop]. rewrite Hx. cbn [mbind option_bind].
      destruct (decide (in_index x ∈ ix)) as [D|D].
      + destruct (destroy_input_ok i x s.1 HC Hx) as (r & o & Ho & E & HC1 & HS1 & HI1 & HU1). unfold lift, notify. simpl. rewrite E. simpl.
        destruct (IH live (r, obs (EInputDestroy i) s.1 s.2) HC1) as (s' & live' & E' & HC' & HS' & Hsub & A1 & A2 & A3 & A4).
        { intros j Hj. unfold is_input. simpl. rewrite HI1, lookup_delete_ne by (intros ->; contradiction). apply Hl. now right. }
        { assumption. }
        exists s', live'. simpl in *. split; [assumption|]. split; [assumption|]. split; [exact (same_shape_trans _ _ _ HS1 HS')|]. split; [now apply sublist_cons|].
        assert (i ∉ live') as Hil by (intros H; apply Hni; exact (elem_of_sublist _ _ _ Hsub H)).
        split; [|split; [|split]].
        * intros j Hj. rewrite not_elem_of_cons in Hj. rewrite A1 by tauto. rewrite HI1. apply lookup_delete_ne. intros ->. tauto.
        * intros j Hj Hn. apply elem_of_cons in Hj as [->|Hj].
          -- split; [|eauto]. rewrite A1 by assumption. rewrite HI1. apply lookup_delete.
          -- destruct (A2 j Hj Hn) as (B1 & z & B2 & B3). split; [assumption|]. exists z. rewrite HI1, lookup_delete_ne in B2 by (intros ->; contradiction). auto.
        * intros k j Hk. destruct (A3 k j Hk) as (z & B1 & B2 & B3). exists z. rewrite HI1, lookup_delete_ne in B1; [auto|]. intros ->. apply Hil. eapply elem_of_list_lookup_2; eassumption.
        * intros o' j. rewrite A4. assert (j ∈ users_of r o' <-> j ∈ users_of s.1 o' /\ j <> i) as F.
          { rewrite HU1. case_decide as Do; [subst o'; rewrite elem_of_list_filter; tauto|]. split; [|tauto]. intros H. split; [assumption|]. intros ->.
            unfold users_of in H. destruct (outputs s.1 !! o') as [y|] eqn:Hy; [|inversion H]. destruct (e_users _ _ (k_e _ _ HC) _ _ _ Hy H) as (z & Hz & Hz'). congruence. }
          rewrite F, elem_of_cons. split.
          -- intros [[B1 B2] B3]. split; [assumption|]. intros [->|B4]; [contradiction|auto].
          -- intros [B1 B2]. split; [split; [assumption|]|auto]. intros ->. apply Hil, B2. now left.
      + set (s1 := (set_inputs <[i := with_in_index (length live) x]> s.1, s.2)).
        destruct (IH (live ++ [i]) s1) as (s' & live' & E' & HC' & HS' & Hsub & A1 & A2 & A3 & A4).
        { apply Core_reindex; assumption. }
        { intros j Hj. unfold is_input. simpl. rewrite lookup_insert_ne by (intros ->; contradiction). apply Hl. now right. }
        { assumption. }
        exists s', (i :: live'). split; [rewrite E', <- app_assoc; reflexivity|]. split; [assumption|].
        split; [exact (same_shape_trans _ _ _ (same_shape_inputs _ _) HS')|]. split; [now apply sublist_skip|]. simpl in A1, A2, A3, A4.
        assert (forall j, j ∈ l -> j <> i) as Hne by (intros j Hj ->; contradiction).
        split; [|split; [|split]].
        * intros j Hj. rewrite not_elem_of_cons in Hj. rewrite A1 by tauto. apply lookup_insert_ne. intros ->. tauto.
        * intros j Hj Hn. rewrite not_elem_of_cons in Hn. apply elem_of_cons in Hj as [->|Hj]; [tauto|].
          destruct (A2 j Hj ltac:(tauto)) as (B1 & z & B2 & B3). split; [assumption|]. exists z. rewrite lookup_insert_ne in B2 by (apply not_eq_sym; auto). auto.
        * intros [|k] j Hk; simpl in Hk.
          -- injection Hk as <-. exists x. split; [assumption|]. split; [|assumption]. rewrite A1 by assumption. rewrite lookup_insert, Nat.add_0_r. reflexivity.
          -- destruct (A3 k j Hk) as (z & B1 & B2 & B3). exists z. rewrite lookup_insert_ne in B1. 2:{ intros <-. apply Hni. apply (elem_of_sublist _ _ _ Hsub). eapply elem_of_list_lookup_2; eassumption. }
             split; [assumption|]. split; [|assumption]. rewrite B2. rewrite app_length. simpl. do 2 f_equal. lia.
        * intros o' j. rewrite A4. assert (users_of (set_inputs <[i:=with_in_index (length live) x]> s.1) o' = users_of s.1 o') as -> by reflexivity.
          rewrite !elem_of_cons. split; [intros [B1 B2]; split; [assumption|]; intros [->|B3]; auto|]. intros [B1 B2]. split; [assumption|]. intros Hj. destruct (B2 (or_intror Hj)) as [->|]; [contradiction|assumption].
  Qed.

  Lemma node_inputs_ok s n nd : OwnI s -> nodes s !! n = Some nd -> forall i, i ∈ nd_inputs nd -> is_input s i.
  Proof.
    intros H Hn i Hi. apply elem_of_list_lookup in Hi as [k Hk]. destruct (proj1 (i_node _ H n k i)) as (x & Hx & _); [eauto|]. eexists; exact Hx.
  Qed.

  Lemma remove_inputs_ok p ix (s : region * T) nd : Inv s.1 -> nodes s.1 !! p = Some nd -> nd_inputs nd <> [] ->
    exists s' live, remove_inputs obs p ix s = Some s' /\ Inv s'.1 /\ (ix = [] -> s' = s) /\
      live `sublist_of` nd_inputs nd /\
      (exists nd', nodes s'.1 !! p = Some nd' /\ nd_inputs nd' = live /\ nd_outputs nd' = nd_outputs nd /\ nd_id nd' = nd_id nd) /\
      (forall i, i ∈ nd_inputs nd -> (i ∈ live <-> ~ exists x, inputs s.1 !! i = Some x /\ in_index x ∈ ix)) /\
      (forall n, n <> p -> shape_node <$> nodes s'.1 !! n = shape_node <$> nodes s.1 !! n) /\
      (forall o, shape_out <$> outputs s'.1 !! o = shape_out <$> outputs s.1 !! o) /\
      (forall j, j ∉ nd_inputs nd -> inputs s'.1 !! j = inputs s.1 !! j) /\
      (forall j, j ∈ nd_inputs nd -> j ∉ live -> inputs s'.1 !! j = None) /\
      (forall k j, live !! k = Some j -> exists x, inputs s.1 !! j = Some x /\ inputs s'.1 !! j = Some (with_in_index k x)) /\
      (forall o j, j ∈ users_of s'.1 o <-> j ∈ users_of s.1 o /\ (j ∈ nd_inputs nd -> j ∈ live)) /\
      args s'.1 = args s.1 /\ results s'.1 = results s.1 /\ next_id s'.1 = next_id s.1.
  Proof.
    intros HInv Hp Hne. pose proof HInv as [HC HI HT HA HD]. unfold remove_inputs.
    destruct (decide (ix = [])) as [->|Hix].
    { exists s, (nd_inputs nd). split; [reflexivity|]. split; [assumption|]. split; [reflexivity|]. split; [reflexivity|]. split; [eauto|]. split.
      { intros i Hi. split; [|tauto]. intros _ (x & _ & K). inversion K. }
      split; [reflexivity|]. split; [reflexivity|]. split; [reflexivity|]. split; [tauto|]. split; [|split; [tauto|auto]].
      intros k j Hk. destruct (proj1 (i_node _ HI p k j)) as (x & Hx & E1 & E2); [eauto|]. exists x. split; [assumption|]. rewrite Hx. destruct x; simpl in *; subst; reflexivity. }
    rewrite Hp. cbn [mbind option_bind].
    destruct (remove_inputs_loop_ok ix (nd_inputs nd) [] s HC (node_inputs_ok _ _ _ HI Hp) (OwnI_nodup _ _ _ HI Hp)) as (s1 & live & E & HC1 & HS1 & Hsub & A1 & A2 & A3 & A4).
    rewrite E. cbn [mbind option_bind app]. destruct (ss_node_l _ _ _ _ HS1 Hp) as (nd1 & Hp1 & E1). apply shape_node_inv in E1 as (E1 & E2 & E3).
    rewrite Hp1. cbn [mbind option_bind].
    set (r := set_nodes <[p := with_inputs live nd1]> s1.1).
    assert (Core None r) as HCr.
    { destruct HC1 as [K1 K2 K3]. constructor.
      - destruct K1 as [B1 B2 B3 B4]. constructor; assumption.
      - constructor; [|apply K2]. intros n k o. transitivity (exists md, nodes s1.1 !! n = Some md /\ nd_outputs md !! k = Some o); [|exact (o_node _ K2 n k o)]. unfold r. simpl. destruct (decide (n = p)) as [->|Dn].
        + rewrite lookup_insert. split; intros (md & Hm & Hk).
          * injection Hm as <-. exists nd1. auto.
          * exists (with_inputs live nd1). rewrite Hp1 in Hm. injection Hm as <-. auto.
        + rewrite lookup_insert_ne by auto. reflexivity.
      - constructor.
        + intros n md Hm. unfold r in Hm. simpl in Hm. destruct (decide (n = p)) as [->|Dn].
          * rewrite lookup_insert in Hm. injection Hm as <-. exact (b_succ _ K3 p nd1 Hp1).
          * rewrite lookup_insert_ne in Hm by auto. exact (b_succ _ K3 n md Hm).
        + apply K3.
        + intros n. unfold r. simpl. rewrite (b_iff _ K3). destruct (decide (n = p)) as [->|Dn].
          * rewrite lookup_insert. split; intros (md & Hm & Hk).
            -- exists (with_inputs live nd1). rewrite Hp1 in Hm. injection Hm as <-. auto.
            -- injection Hm as <-. exists nd1. auto.
          * rewrite lookup_insert_ne by auto. reflexivity. }
    assert (forall n md, nodes r !! n = Some md -> n <> p -> exists md0, nodes s.1 !! n = Some md0 /\ nd_inputs md = nd_inputs md0 /\ nd_id md = nd_id md0) as Nr.
    { intros n md Hm Dn. unfold r in Hm. simpl in Hm. rewrite lookup_insert_ne in Hm by auto. destruct (ss_node_r _ _ _ _ HS1 Hm) as (m0 & Hm0 & F). apply shape_node_inv in F as (F1 & F2 & _). eauto. }
    assert (forall n md, nodes s.1 !! n = Some md -> n <> p -> exists md0, nodes r !! n = Some md0 /\ nd_inputs md0 = nd_inputs md) as Nl.
    { intros n md Hm Dn. unfold r. simpl. rewrite lookup_insert_ne by auto. destruct (ss_node_l _ _ _ _ HS1 Hm) as (m0 & Hm0 & F). apply shape_node_inv in F as (F1 & F2 & _). eauto. }
    assert (nodes r !! p = Some (with_inputs live nd1)) as Hpr by apply lookup_insert.
    assert (forall j, j ∈ nd_inputs nd -> exists x k, inputs s.1 !! j = Some x /\ in_owner x = ONode p /\ nd_inputs nd !! k = Some j /\ in_index x = k) as Own.
    { intros j Hj. apply elem_of_list_lookup in Hj as [k Hk]. destruct (proj1 (i_node _ HI p k j)) as (x & Hx & F1 & F2); [eauto|]. eauto 10. }
    assert (forall j x', inputs s1.1 !! j = Some x' -> (j ∉ nd_inputs nd /\ inputs s.1 !! j = Some x') \/ (exists k x, live !! k = Some j /\ inputs s.1 !! j = Some x /\ x' = with_in_index k x)) as Back.
    { intros j x' Hj. destruct (decide (j ∈ nd_inputs nd)) as [Din|Din].
      - destruct (decide (j ∈ live)) as [Dl|Dl].
        + apply elem_of_list_lookup in Dl as [k Hk]. destruct (A3 k j Hk) as (x & B1 & B2 & _). right. exists k, x. simpl in B2. split; [assumption|]. split; [assumption|]. congruence.
        + destruct (A2 j Din Dl). congruence.
      - left. rewrite A1 in Hj by assumption. auto. }
    assert (forall j, j ∈ live -> j ∈ nd_inputs nd) as Sub by (intros j; apply elem_of_sublist; assumption).
    assert (OwnI r) as HIr.
    { constructor.
      - intros n k j. split.
        + intros (md & Hm & Hk). destruct (decide (n = p)) as [->|Dn].
          * rewrite Hpr in Hm. injection Hm as <-. simpl in Hk. destruct (A3 k j Hk) as (x & B1 & B2 & _). unfold r; simpl. eexists. split; [exact B2|]. simpl. split; [|reflexivity].
            destruct (Own j) as (x0 & k0 & F1 & F2 & _). { apply Sub. eapply elem_of_list_lookup_2; eassumption. } congruence.
          * destruct (Nr n md Hm Dn) as (m0 & Hm0 & F & _). rewrite F in Hk. destruct (proj1 (i_node _ HI n k j)) as (x & Hx & F1 & F2); [eauto|].
            exists x. split; [|auto]. unfold r; simpl. rewrite A1; [assumption|]. intros Hin. destruct (Own j Hin) as (x0 & k0 & G1 & G2 & _). congruence.
        + intros (x & Hx & F1 & F2). unfold r in Hx; simpl in Hx. destruct (Back j x Hx) as [[B1 B2]|(k0 & x0 & B1 & B2 & ->)].
          * destruct (proj2 (i_node _ HI n k j)) as (md & Hm & Hk); [eauto|]. destruct (decide (n = p)) as [->|Dn].
            -- exfalso. apply B1. rewrite Hp in Hm. injection Hm as <-. eapply elem_of_list_lookup_2; eassumption.
            -- destruct (Nl n md Hm Dn) as (m0 & Hm0 & F). exists m0. rewrite F. auto.
          * simpl in F1, F2. destruct (Own j) as (x1 & k1 & G1 & G2 & _). { apply Sub. eapply elem_of_list_lookup_2; eassumption. }
            assert (n = p) as -> by congruence. exists (with_inputs live nd1). split; [assumption|]. simpl. congruence.
      - intros k j. unfold r; simpl. rewrite (ss_results _ _ HS1), (i_res _ HI). split; intros (x & Hx & F1 & F2).
        + exists x. split; [|auto]. rewrite A1; [assumption|]. intros Hin. destruct (Own j Hin) as (x0 & k0 & G1 & G2 & _). congruence.
        + destruct (Back j x Hx) as [[B1 B2]|(k0 & x0 & B1 & B2 & ->)]; [eauto|]. simpl in F1.
          destruct (Own j) as (x1 & k1 & G1 & G2 & _). { apply Sub. eapply elem_of_list_lookup_2; eassumption. } congruence. }
    assert (AllN r) as HAr.
    { pose proof (AllN_shape _ _ HS1 HA) as [B1 B2]. split; [exact B1|]. intros n. unfold r; simpl. rewrite B2. destruct (decide (n = p)) as [->|Dn]; [rewrite lookup_insert, Hp1|rewrite lookup_insert_ne by auto]; split; eauto. }
    assert (Ids r) as HDr.
    { pose proof (Ids_shape _ _ HS1 HD) as [B1 B2].
      assert (forall n md, nodes r !! n = Some md -> exists m0, nodes s1.1 !! n = Some m0 /\ nd_id m0 = nd_id md) as F.
      { intros n md Hm. unfold r in Hm; simpl in Hm. destruct (decide (n = p)) as [->|Dn]; [rewrite lookup_insert in Hm; injection Hm as <-; eauto|rewrite lookup_insert_ne in Hm by auto; eauto]. }
      split.
      - intros n md Hm. destruct (F n md Hm) as (m0 & Hm0 & <-). exact (B1 n m0 Hm0).
      - intros n m md md' Hm Hm' Eid. destruct (F n md Hm) as (m0 & Hm0 & G0). destruct (F m md' Hm') as (m1 & Hm1 & G1). eapply B2; [eassumption..|congruence]. }
    assert (forall s' : region * T, nodes s'.1 = nodes r -> inputs s'.1 = inputs r -> outputs s'.1 = outputs r -> args s'.1 = args r -> results s'.1 = results r -> next_id s'.1 = next_id r ->
        bottom s'.1 = bottom r -> all_nodes s'.1 = all_nodes r -> Top s'.1 ->
        Inv s'.1 /\ (ix = [] -> s' = s) /\ live `sublist_of` nd_inputs nd /\
        (exists nd', nodes s'.1 !! p = Some nd' /\ nd_inputs nd' = live /\ nd_outputs nd' = nd_outputs nd /\ nd_id nd' = nd_id nd) /\
        (forall i, i ∈ nd_inputs nd -> (i ∈ live <-> ~ exists x, inputs s.1 !! i = Some x /\ in_index x ∈ ix)) /\
        (forall n, n <> p -> shape_node <$> nodes s'.1 !! n = shape_node <$> nodes s.1 !! n) /\
        (forall o, shape_out <$> outputs s'.1 !! o = shape_out <$> outputs s.1 !! o) /\
        (forall j, j ∉ nd_inputs nd -> inputs s'.1 !! j = inputs s.1 !! j) /\
        (forall j, j ∈ nd_inputs nd -> j ∉ live -> inputs s'.1 !! j = None) /\
        (forall k j, live !! k = Some j -> exists x, inputs s.1 !! j = Some x /\ inputs s'.1 !! j = Some (with_in_index k x)) /\
        (forall o j, j ∈ users_of s'.1 o <-> j ∈ users_of s.1 o /\ (j ∈ nd_inputs nd -> j ∈ live)) /\
        args s'.1 = args s.1 /\ results s'.1 = results s.1 /\ next_id s'.1 = next_id s.1) as Fin.
    { intros s' G1 G2 G3 G4 G5 G6 G7 G8 HT'. split; [|split; [contradiction|split; [assumption|split; [|split; [|split; [|split; [|split; [|split; [|split; [|split; [|split; [|split]]]]]]]]]]]].
      - constructor; [|constructor|assumption| |].
        + destruct HCr as [K1 K2 K3]. constructor.
          * destruct K1 as [B1 B2 B3 B4]. constructor; rewrite ?G2, ?G3; assumption.
          * apply (OwnO_frame r); assumption.
          * apply (Bottom_frame r); assumption.
        + rewrite G1, G2. apply HIr.
        + rewrite G2, G5. apply HIr.
        + unfold AllN. rewrite G8, G1. exact HAr.
        + unfold Ids. rewrite G1, G6. exact HDr.
      - exists (with_inputs live nd1). rewrite G1. auto.
      - intros i Hi. destruct (decide (i ∈ live)) as [Dl|Dl].
        + split; [|tauto]. intros _ (x & Hx & Hix'). pose proof Dl as Dl'. apply elem_of_list_lookup in Dl' as [k Hk]. destruct (A3 k i Hk) as (x0 & B1 & _ & B3). congruence.
        + split; [contradiction|]. intros H. exfalso. apply H. destruct (A2 i Hi Dl) as (_ & x & B1 & B2). eauto.
      - intros n Dn. rewrite G1. unfold r; simpl. rewrite lookup_insert_ne by auto. symmetry. apply (ss_nodes _ _ HS1).
      - intros o. rewrite G3. symmetry. apply (ss_outputs _ _ HS1).
      - intros j Hj. rewrite G2. exact (A1 j Hj).
      - intros j Hj Hl. rewrite G2. exact (proj1 (A2 j Hj Hl)).
      - intros k j Hk. rewrite G2. destruct (A3 k j Hk) as (x & B1 & B2 & _). eauto.
      - intros o j. unfold users_of at 1. rewrite G3. exact (A4 o j).
      - rewrite G4. apply (ss_args _ _ HS1).
      - rewrite G5. apply (ss_results _ _ HS1).
      - rewrite G6. apply (ss_id _ _ HS1). }
    destruct HT as [HT1 HT2].
    assert (p ∉ il_elems (top s1.1)) as Hpt. { rewrite (ss_top _ _ HS1). intros H. apply HT2 in H as (md & Hm & F). congruence. }
    destruct (decide (live = [])) as [El|El].
    - unfold lift, on_top_added. cbn [fst snd]. destruct (il_push_ok p (top s1.1)) as (lt & Et & Ot & Mt); [rewrite (ss_top _ _ HS1); assumption|assumption|].
      fold r. change (top r) with (top s1.1). rewrite Et. simpl. eexists _, live. split; [reflexivity|].
      apply Fin; try reflexivity. split; [exact Ot|]. intros n. simpl. rewrite Mt, (ss_top _ _ HS1), HT2. destruct (decide (n = p)) as [->|Dn].
      + split; [|tauto]. intros _. exists (with_inputs live nd1). split; [apply lookup_insert|assumption].
      + rewrite lookup_insert_ne by auto. split.
        * intros [(md & Hm & F)|F]; [|contradiction]. destruct (Nl n md Hm Dn) as (m0 & Hm0 & G). unfold r in Hm0; simpl in Hm0. rewrite lookup_insert_ne in Hm0 by auto. exists m0. split; [assumption|congruence].
        * intros (md & Hm & F). left. destruct (Nr n md) as (m0 & Hm0 & G & _). { unfold r; simpl. now rewrite lookup_insert_ne by auto. } { assumption. } exists m0. split; [assumption|congruence].
    - eexists _, live. split; [reflexivity|]. apply Fin; try reflexivity. split; [simpl; rewrite (ss_top _ _ HS1); assumption|].
      intros n. simpl. rewrite (ss_top _ _ HS1), HT2. destruct (decide (n = p)) as [->|Dn].
      + rewrite lookup_insert. split; [intros (md & Hm & F); congruence|]. intros (md & Hm & F). injection Hm as <-. simpl in F. contradiction.
      + rewrite lookup_insert_ne by auto. split.
        * intros (md & Hm & F). destruct (Nl n md Hm Dn) as (m0 & Hm0 & G). unfold r in Hm0; simpl in Hm0. rewrite lookup_insert_ne in Hm0 by auto. exists m0. split; [assumption|congruence].
        * intros (md & Hm & F). destruct (Nr n md) as (m0 & Hm0 & G & _). { unfold r; simpl. now rewrite lookup_insert_ne by auto. } { assumption. } exists m0. split; [assumption|congruence].
  Qed.

  (** ** results *)
  Lemma result_inputs s : OwnI s -> forall i, i ∈ results s -> is_input s i.
  Proof.
    intros H i Hi. apply elem_of_list_lookup in Hi as [k Hk]. destruct (proj1 (i_res _ H k i)) as (x & Hx & _); [eauto|]. eexists; exact Hx.
  Qed.
  Lemma result_nodup s : OwnI s -> NoDup (results s).
  Proof.
    intros H. apply NoDup_alt. intros k k' o Hk Hk'. apply (i_res _ H) in Hk as (x & Hx & _ & E1). apply (i_res _ H) in Hk' as (x' & Hx' & _ & E2). congruence.
  Qed.
  Lemma Inv_results s s' : Inv s -> Core None s' -> (forall n, shape_node <$> nodes s !! n = shape_node <$> nodes s' !! n) ->
    top s' = top s -> all_nodes s' = all_nodes s -> next_id s' = next_id s ->
    (forall j n k, (exists x, inputs s' !! j = Some x /\ in_owner x = ONode n /\ in_index x = k) <-> (exists x, inputs s !! j = Some x /\ in_owner x = ONode n /\ in_index x = k)) ->
    (forall k j, results s' !! k = Some j <-> (exists x, inputs s' !! j = Some x /\ in_owner x = ORegion /\ in_index x = k)) -> Inv s'.
  Proof.
    intros [HC HI HT HA HD] HC' Hn Et Ea Ei Hin Hres.
    assert (same_shape s {| inputs := inputs s; outputs := outputs s; nodes := nodes s'; args := args s; results := results s; top := top s'; bottom := bottom s; all_nodes := all_nodes s'; next_id := next_id s' |}) as HS
      by (constructor; simpl; auto).
    constructor.
    - assumption.
    - constructor; [|assumption]. intros n k i. rewrite Hin, <- (i_node _ HI n k i). pose proof (Hn n) as K. destruct (nodes s !! n) as [a|], (nodes s' !! n) as [b|]; try discriminate.
      + simpl in K. assert (shape_node a = shape_node b) as K' by congruence. apply shape_node_inv in K' as (_ & K' & _). split; intros (nd & E & F); injection E as <-; [exists a|exists b]; split; auto; congruence.
      + split; intros (nd & E & _); discriminate.
    - exact (Top_shape _ _ HS HT).
    - exact (AllN_shape _ _ HS HA).
    - exact (Ids_shape _ _ HS HD).
  Qed.

  Lemma add_result_ok i o ty (s : region * T) : Inv s.1 -> inputs s.1 !! i = None ->
    match add_result obs i o ty s with
    | Ok s' => Inv s'.1 /\ check_types o ty s.1 = true /\
        inputs s'.1 = <[i := {| in_owner := ORegion; in_origin := Some o; in_index := length (results s.1); in_type := ty |}]> (inputs s.1) /\
        results s'.1 = results s.1 ++ [i] /\
        (forall n, shape_node <$> nodes s.1 !! n = shape_node <$> nodes s'.1 !! n) /\
        (forall o', shape_out <$> outputs s.1 !! o' = shape_out <$> outputs s'.1 !! o') /\
        (forall o', users_of s'.1 o' = if decide (o' = o) then users_of s.1 o ++ [i] else users_of s.1 o') /\
        args s'.1 = args s.1 /\ next_id s'.1 = next_id s.1 /\
        s'.2 = obs (EInputCreate i) s'.1 s.2
    | Throws s' => s' = s /\ check_types o ty s.1 = false
    | UB => False
    end.
  Proof.
    intros HInv Hi. unfold add_result. destruct (check_types o ty s.1) eqn:Hc; [|auto].
    destruct (new_input_ok i ORegion o ty s.1 (v_core _ HInv) Hi Hc) as (r & E & HC & HS & HIn & HU). rewrite E. cbn [mbind option_bind].
    rewrite HIn, lookup_insert. cbn [mbind option_bind]. simpl.
    set (x := with_in_index (length (results r)) {| in_owner := ORegion; in_origin := Some o; in_index := 0; in_type := ty |}).
    assert (inputs r !! i = Some {| in_owner := ORegion; in_origin := Some o; in_index := 0; in_type := ty |}) as Hir by (rewrite HIn; apply lookup_insert).
    assert (<[i := x]> (inputs r) = <[i := x]> (inputs s.1)) as Ex by (rewrite HIn; apply insert_insert).
    split; [|split; [reflexivity|split; [rewrite Ex; unfold x; rewrite (ss_results _ _ HS); reflexivity|split; [now rewrite (ss_results _ _ HS)|split; [apply (ss_nodes _ _ HS)|split; [apply (ss_outputs _ _ HS)|split; [exact HU|split; [apply (ss_args _ _ HS)|split; [apply (ss_id _ _ HS)|reflexivity]]]]]]]]].
    apply (Inv_results s.1); simpl.
    - assumption.
    - pose proof (Core_reindex None i _ (length (results r)) r Hir HC) as [K1 K2 K3]. destruct K1 as [B1 B2 B3 B4]. constructor; [constructor; assumption|apply (OwnO_frame r); try reflexivity; apply HC|apply (Bottom_frame r); try reflexivity; apply HC].
    - apply (ss_nodes _ _ HS).
    - apply (ss_top _ _ HS).
    - apply (ss_all _ _ HS).
    - apply (ss_id _ _ HS).
    - intros j n k. rewrite Ex. destruct (decide (j = i)) as [->|D]; [|rewrite lookup_insert_ne by auto; reflexivity].
      rewrite lookup_insert, Hi. split; intros (z & Hz & F & _); [injection Hz as <-; discriminate|discriminate].
    - intros k j. rewrite Ex, (ss_results _ _ HS). destruct (decide (j = i)) as [->|D].
      + rewrite lookup_insert. rewrite lookup_app_Some. split.
        * intros [H|[H1 H2]].
          -- apply (i_res _ (v_i _ HInv)) in H as (z & Hz & _). congruence.
          -- eexists. split; [reflexivity|]. split; [reflexivity|]. simpl. rewrite (ss_results _ _ HS). destruct (k - length (results s.1)) eqn:Ek; [lia|discriminate].
        * intros (z & Hz & _ & F). injection Hz as <-. simpl in F. rewrite (ss_results _ _ HS) in F. right. subst k. split; [lia|]. now rewrite Nat.sub_diag.
      + rewrite lookup_insert_ne by auto. rewrite <- (i_res _ (v_i _ HInv)). rewrite lookup_app_Some. split; [|tauto]. intros [H|[H1 H2]]; [assumption|]. apply list_lookup_singleton_Some in H2 as [_ H2]. congruence.
  Qed.

  Lemma remove_results_ok ix (s : region * T) : Inv s.1 ->
    exists s' live, remove_results obs ix s = Some s' /\ Inv s'.1 /\ results s'.1 = live /\ live `sublist_of` results s.1 /\
      (forall i, i ∈ results s.1 -> (i ∈ live <-> ~ exists x, inputs s.1 !! i = Some x /\ in_index x ∈ ix)) /\
      (forall n, shape_node <$> nodes s.1 !! n = shape_node <$> nodes s'.1 !! n) /\
      (forall o, shape_out <$> outputs s.1 !! o = shape_out <$> outputs s'.1 !! o) /\
      (forall j, j ∉ results s.1 -> inputs s'.1 !! j = inputs s.1 !! j) /\
      (forall j, j ∈ results s.1 -> j ∉ live -> inputs s'.1 !! j = None) /\
      (forall k j, live !! k = Some j -> exists x, inputs s.1 !! j = Some x /\ inputs s'.1 !! j = Some (with_in_index k x)) /\
      (forall o j, j ∈ users_of s'.1 o <-> j ∈ users_of s.1 o /\ (j ∈ results s.1 -> j ∈ live)) /\
      args s'.1 = args s.1 /\ next_id s'.1 = next_id s.1.
  Proof.
    intros HInv. pose proof HInv as [HC HI HT HA HD]. unfold remove_results. destruct (decide (ix = [])) as [->|Hix].
    { exists s, (results s.1). split; [reflexivity|]. split; [assumption|]. split; [reflexivity|]. split; [reflexivity|]. split.
      { intros i Hi. split; [|tauto]. intros _ (x & _ & K). inversion K. }
      do 3 (split; [reflexivity|]). split; [tauto|]. split; [|split; [tauto|auto]].
      intros k j Hk. apply (i_res _ HI) in Hk as (x & Hx & E1 & E2). exists x. split; [assumption|]. rewrite Hx. destruct x; simpl in *; subst; reflexivity. }
    destruct (remove_inputs_loop_ok ix (results s.1) [] s HC (result_inputs _ HI) (result_nodup _ HI)) as (s1 & live & E & HC1 & HS1 & Hsub & A1 & A2 & A3 & A4).
    rewrite E. cbn [mbind option_bind app]. eexists _, live. split; [reflexivity|]. simpl.
    assert (forall j, j ∈ live -> j ∈ results s.1) as Sub by (intros j; apply elem_of_sublist; assumption).
    split; [|split; [reflexivity|split; [assumption|split; [|split; [apply (ss_nodes _ _ HS1)|split; [apply (ss_outputs _ _ HS1)|split; [exact A1|split; [|split; [|split; [exact A4|split; [apply (ss_args _ _ HS1)|apply (ss_id _ _ HS1)]]]]]]]]]]].
    - apply (Inv_results s.1); simpl; [assumption| |apply (ss_nodes _ _ HS1)|apply (ss_top _ _ HS1)|apply (ss_all _ _ HS1)|apply (ss_id _ _ HS1)| |].
      + destruct HC1 as [[B1 B2 B3 B4] K2 K3]. constructor; [constructor; assumption|apply (OwnO_frame s1.1); auto|apply (Bottom_frame s1.1); auto].
      + intros j n k. destruct (decide (j ∈ results s.1)) as [D|D]; [|rewrite A1 by assumption; reflexivity].
        assert (forall x, inputs s.1 !! j = Some x -> in_owner x = ORegion) as Ow. { intros x Hx. apply elem_of_list_lookup in D as [k' Hk']. apply (i_res _ HI) in Hk' as (x' & Hx' & F & _). congruence. }
        split; intros (x & Hx & F1 & F2).
        * destruct (decide (j ∈ live)) as [Dl|Dl]; [|destruct (A2 j D Dl); congruence]. apply elem_of_list_lookup in Dl as [k' Hk']. destruct (A3 k' j Hk') as (x0 & G1 & G2 & _). rewrite G2 in Hx. injection Hx as <-. simpl in F1. rewrite (Ow _ G1) in F1. discriminate.
        * rewrite (Ow _ Hx) in F1. discriminate.
      + intros k j. split.
        * intros Hk. destruct (A3 k j Hk) as (x & G1 & G2 & _). eexists. split; [exact G2|]. simpl. split; [|reflexivity].
          assert (j ∈ results s.1) as D by (apply Sub; eapply elem_of_list_lookup_2; eassumption). apply elem_of_list_lookup in D as [k' Hk']. apply (i_res _ HI) in Hk' as (x' & Hx' & F & _). congruence.
        * intros (x & Hx & F1 & F2). destruct (decide (j ∈ results s.1)) as [D|D].
          -- destruct (decide (j ∈ live)) as [Dl|Dl]; [|destruct (A2 j D Dl); congruence]. apply elem_of_list_lookup in Dl as [k' Hk']. destruct (A3 k' j Hk') as (x0 & G1 & G2 & _). rewrite G2 in Hx. injection Hx as <-. simpl in F2. congruence.
          -- exfalso. apply D. rewrite A1 in Hx by assumption. eapply elem_of_list_lookup_2. apply (i_res _ HI). eauto.
    - intros i Hi. destruct (decide (i ∈ live)) as [Dl|Dl].
      + split; [|tauto]. intros _ (x & Hx & Hix'). pose proof Dl as Dl'. apply elem_of_list_lookup in Dl' as [k Hk]. destruct (A3 k i Hk) as (x0 & B1 & _ & B3). congruence.
      + split; [contradiction|]. intros H. exfalso. apply H. destruct (A2 i Hi Dl) as (_ & x & B1 & B2). eauto.
    - intros j Hj Hl. exact (proj1 (A2 j Hj Hl)).
    - intros k j Hk. destruct (A3 k j Hk) as (x & B1 & B2 & _). eauto.
  Qed.
End Ops.
