From stdpp Require Import base list gmap.
From Verif.Region Require Import Model Spec Proofs Proofs2 Proofs3 Proofs4.

(** Changing nothing but outputs and the lists that hold them *)
Lemma Inv_outputs s s' :
  Inv s -> OwnO s' -> inputs s' = inputs s -> results s' = results s -> top s' = top s -> bottom s' = bottom s ->
  all_nodes s' = all_nodes s -> next_id s' = next_id s ->
  (* outputs with users stay; new ones have none *)
  (forall o y, outputs s !! o = Some y -> out_users y <> [] -> exists y', outputs s' !! o = Some y' /\ out_users y' = out_users y /\ out_type y' = out_type y) ->
  (forall o y', outputs s' !! o = Some y' -> out_users y' = [] /\ out_nusers y' = 0 \/
     exists y, outputs s !! o = Some y /\ out_users y' = out_users y /\ out_nusers y' = out_nusers y) ->
  (forall n, (fun nd => (nd_id nd, nd_inputs nd, nd_succ nd)) <$> nodes s' !! n = (fun nd => (nd_id nd, nd_inputs nd, nd_succ nd)) <$> nodes s !! n) ->
  (forall n nd nd', nodes s !! n = Some nd -> nodes s' !! n = Some nd' -> total s' (nd_outputs nd') = total s (nd_outputs nd)) ->
  Inv s'.
Proof.
  intros [[HE HO HB] HI HT HA HD] HO' Ei Er Et Eb Ea Ed Hold Hnew Hnd Htot.
  assert (forall n z', nodes s' !! n = Some z' -> exists z, nodes s !! n = Some z /\ nd_id z = nd_id z' /\ nd_inputs z = nd_inputs z' /\ nd_succ z = nd_succ z') as Hr.
  { intros n z' E. specialize (Hnd n). rewrite E in Hnd. destruct (nodes s !! n) as [z|]; [|discriminate]. simpl in Hnd. injection Hnd as F1 F2 F3. exists z. auto. }
  assert (forall n z, nodes s !! n = Some z -> exists z', nodes s' !! n = Some z' /\ nd_id z = nd_id z' /\ nd_inputs z = nd_inputs z' /\ nd_succ z = nd_succ z') as Hl.
  { intros n z' E. specialize (Hnd n). rewrite E in Hnd. destruct (nodes s' !! n) as [z|]; [|discriminate]. simpl in Hnd. injection Hnd as F1 F2 F3. exists z. auto. }
  constructor.
  - constructor; [|exact HO'|].
    + constructor; rewrite ?Ei.
      * intros i x Hx _. destruct (e_in _ _ HE i x Hx ltac:(discriminate)) as (o & y & F1 & F2 & F3 & F4).
        destruct (Hold o y F2) as (y' & Hy' & U & Ty); [intros E; rewrite E in F3; inversion F3|]. exists o, y'. rewrite U, Ty. auto.
      * intros i x _ D. discriminate.
      * intros o y' i Hy' Hi. destruct (Hnew o y' Hy') as [[E _]|(y & Hy & E & _)]; [rewrite E in Hi; inversion Hi|].
        rewrite E in Hi. exact (e_users _ _ HE o y i Hy Hi).
      * intros o y' Hy'. destruct (Hnew o y' Hy') as [[E1 E2]|(y & Hy & E1 & E2)]; rewrite E1, E2; [split; [constructor|reflexivity]|].
        exact (e_nodup _ _ HE o y Hy).
    + constructor.
      * intros n z' Ez'. destruct (Hr n z' Ez') as (z & Ez & _ & _ & <-). rewrite (Htot n z z' Ez Ez'). exact (b_succ _ HB n z Ez).
      * rewrite Eb. apply HB.
      * intros n. rewrite Eb, (b_iff _ HB). split.
        -- intros (z & Ez & Hz). destruct (Hl n z Ez) as (z' & Ez' & _ & _ & F). exists z'. split; congruence.
        -- intros (z & Ez & Hz). destruct (Hr n z Ez) as (z' & Ez' & _ & _ & F). exists z'. split; congruence.
  - constructor; rewrite ?Ei, ?Er; [|apply HI]. intros n k i. rewrite <- (i_node _ HI). split.
    + intros (z & Ez & Hz). destruct (Hr n z Ez) as (z' & Ez' & _ & F & _). exists z'. split; congruence.
    + intros (z & Ez & Hz). destruct (Hl n z Ez) as (z' & Ez' & _ & F & _). exists z'. split; congruence.
  - unfold Top. rewrite Et. split; [apply HT|]. intros n. rewrite (proj2 HT). split.
    + intros (z & Ez & Hz). destruct (Hl n z Ez) as (z' & Ez' & _ & F & _). exists z'. split; congruence.
    + intros (z & Ez & Hz). destruct (Hr n z Ez) as (z' & Ez' & _ & F & _). exists z'. split; congruence.
  - unfold AllN. rewrite Ea. split; [apply HA|]. intros n. rewrite (proj2 HA). split; intros [z Ez].
    + destruct (Hl n z Ez) as (z' & Ez' & _). eauto.
    + destruct (Hr n z Ez) as (z' & Ez' & _). eauto.
  - destruct HD as [D1 D2]. split; rewrite ?Ed.
    + intros n z Ez. destruct (Hr n z Ez) as (z' & Ez' & F & _). rewrite <- F. exact (D1 n z' Ez').
    + intros n m z1 z2 E1 E2 E3. destruct (Hr n z1 E1) as (y1 & Y1 & F1 & _). destruct (Hr m z2 E2) as (y2 & Y2 & F2 & _).
      eapply D2; [exact Y1|exact Y2|congruence].
Qed.

(** reindexing of the outputs of one owner: [l] becomes [live] *)
Definition index_in (l : list ptr) : ptr -> nat -> Prop := fun o k => l !! k = Some o.
Lemma nusers_out s s' o : (outputs s' !! o = None /\ nusers s o = 0) \/ (exists y y', outputs s !! o = Some y /\ outputs s' !! o = Some y' /\ out_nusers y' = out_nusers y) ->
  nusers s' o = nusers s o.
Proof. unfold nusers. intros [[-> H]|(y & y' & -> & -> & ->)]; [now rewrite H|reflexivity]. Qed.

Section Loops.
  (** effect of the loop that removes outputs *)
  Lemma remove_outputs_loop_ok b ix l : forall live s,
    (forall o, o ∈ l -> is_output s o) -> NoDup l ->
    exists m live', remove_outputs_loop b ix l live s = Some (set_outputs (fun _ => m) s, live ++ live') /\
      live' `sublist_of` l /\
      (forall o, o ∉ l -> m !! o = outputs s !! o) /\
      (forall o, o ∈ l -> o ∉ live' -> m !! o = None /\ exists y, outputs s !! o = Some y /\ out_nusers y = 0 /\ (b = true \/ out_index y ∈ ix)) /\
      (forall k o, live' !! k = Some o -> exists y, outputs s !! o = Some y /\ m !! o = Some (with_out_index (length live + k) y) /\
          ~ (out_nusers y = 0 /\ (b = true \/ out_index y ∈ ix))).
  Proof.
    induction l as [|o l IH]; intros live s Hl Hnd.
    - exists (outputs s), []. simpl. rewrite app_nil_r. split; [destruct s; reflexivity|]. split; [constructor|].
      split; [reflexivity|]. split; [intros o H; inversion H|]. intros k o H. discriminate.
    - apply NoDup_cons in Hnd as [Hno Hnd]. destruct (Hl o (elem_of_list_here o l)) as [y Hy]. simpl. rewrite Hy. simpl.
      destruct (decide (out_nusers y = 0 /\ (b = true \/ out_index y ∈ ix))) as [Hd|Hk].
      + destruct (IH live (set_outputs (delete o) s)) as (m & live' & E & Hsub & H1 & H2 & H3); [|assumption|].
        { intros o' Ho'. unfold is_output. simpl. rewrite lookup_delete_ne; [apply Hl; now right|]. intros ->. contradiction. }
        exists m, live'. rewrite E. split; [reflexivity|]. split; [now constructor|].
        assert (o ∉ live') as Hnl by (intros H; apply Hno; eapply elem_of_submseteq; [exact H|now apply sublist_submseteq]).
        split; [|split].
        * intros o' Ho'. apply not_elem_of_cons in Ho' as [A B]. rewrite (H1 o' B). simpl. now rewrite lookup_delete_ne by auto.
        * intros o' Ho' Hn'. apply elem_of_cons in Ho' as [->|Ho'].
          -- split; [|eauto]. rewrite (H1 o Hno). simpl. apply lookup_delete.
          -- destruct (H2 o' Ho' Hn') as (A & y' & B & C). split; [exact A|]. exists y'. split; [|exact C]. simpl in B.
             rewrite lookup_delete_ne in B; [exact B|]. intros ->. contradiction.
        * intros k o' Hk. destruct (H3 k o' Hk) as (y' & A & B & C). exists y'. split; [|auto]. simpl in A.
          rewrite lookup_delete_ne in A; [exact A|]. intros ->. rewrite lookup_delete in A. discriminate.
      + destruct (IH (live ++ [o]) (set_outputs <[o := with_out_index (length live) y]> s)) as (m & live' & E & Hsub & H1 & H2 & H3); [|assumption|].
        { intros o' Ho'. unfold is_output. simpl. rewrite lookup_insert_ne; [apply Hl; now right|]. intros ->. contradiction. }
        exists m, (o :: live'). rewrite E. split; [rewrite <- app_assoc; reflexivity|]. split; [now constructor|]. split; [|split].
        * intros o' Ho'. apply not_elem_of_cons in Ho' as [A B]. rewrite (H1 o' B). simpl. now rewrite lookup_insert_ne by auto.
        * intros o' Ho' Hn'. apply not_elem_of_cons in Hn' as [A B]. apply elem_of_cons in Ho' as [->|Ho']; [congruence|].
          destruct (H2 o' Ho' B) as (C & y' & D & F). split; [exact C|]. exists y'. split; [|exact F]. simpl in D. now rewrite lookup_insert_ne in D by auto.
        * intros k o' Hk'. destruct k as [|k].
          -- injection Hk' as <-. exists y. split; [exact Hy|]. rewrite (H1 o Hno). simpl. rewrite lookup_insert, Nat.add_0_r. auto.
          -- simpl in Hk'. destruct (H3 k o' Hk') as (y' & A & B & C). assert (o' <> o).
             { intros ->. apply Hno. eapply elem_of_submseteq; [eapply elem_of_list_lookup_2; exact Hk'|now apply sublist_submseteq]. }
             exists y'. simpl in A. rewrite lookup_insert_ne in A by auto. split; [exact A|]. split; [|exact C].
             rewrite B. rewrite app_length. simpl. do 2 f_equal. lia.
  Qed.
End Loops.
Lemma sublist_nodup {A} (l k : list A) : l `sublist_of` k -> NoDup k -> NoDup l.
Proof.
  induction 1; intros Hn; [constructor| |].
  - apply NoDup_cons in Hn as [H1 H2]. constructor; [|auto]. intros Hx. apply H1. eapply elem_of_submseteq; [exact Hx|now apply sublist_submseteq].
  - apply NoDup_cons in Hn as [_ H2]. auto.
Qed.
Lemma total_sublist s s' l live : NoDup l -> live `sublist_of` l ->
  (forall o, o ∈ live -> nusers s' o = nusers s o) -> (forall o, o ∈ l -> o ∉ live -> nusers s o = 0) -> total s' live = total s l.
Proof.
  intros Hnd Hsub. revert Hnd. unfold total. induction Hsub as [|x l1 l2 H IH|x l1 l2 H IH]; intros Hnd H1 H2; [reflexivity| |].
  - apply NoDup_cons in Hnd as [Hx Hnd]. cbn [sum_list_with]. rewrite (H1 x) by now left. rewrite IH; [reflexivity|assumption| |].
    + intros o Ho. apply H1. now right.
    + intros o Ho Hn. apply H2; [now right|]. intros Hc. apply elem_of_cons in Hc as [->|Hc]; contradiction.
  - apply NoDup_cons in Hnd as [Hx Hnd]. cbn [sum_list_with]. rewrite (H2 x); [|now left|].
    + apply IH; [assumption|assumption|]. intros o Ho Hn. apply H2; [now right|assumption].
    + intros Hc. apply Hx. eapply elem_of_submseteq; [exact Hc|now apply sublist_submseteq].
Qed.

Section Ops.
  Context {T : Type} (obs : event -> region -> T -> T).

  Lemma add_output_ok p o ty (s : region * T) nd : Inv s.1 -> nodes s.1 !! p = Some nd -> outputs s.1 !! o = None ->
    exists s', add_output p o ty s = Some s' /\ Inv s'.1 /\ s'.2 = s.2 /\
      nodes s'.1 = <[p := with_outputs (nd_outputs nd ++ [o]) nd]> (nodes s.1) /\
      inputs s'.1 = inputs s.1 /\ args s'.1 = args s.1 /\ results s'.1 = results s.1 /\ next_id s'.1 = next_id s.1 /\
      outputs s'.1 = <[o := {| out_owner := ONode p; out_users := []; out_nusers := 0; out_index := length (nd_outputs nd); out_type := ty |}]> (outputs s.1).
  Proof.
    intros HInv Hp Ho. unfold add_output. rewrite Hp. simpl. eexists. split; [reflexivity|]. split; [|simpl; auto 10].
    pose proof (k_o _ _ (v_core _ HInv)) as HO. simpl.
    assert (o ∉ nd_outputs nd) as Hno. { intros H. apply elem_of_list_lookup in H as [k Hk]. destruct (proj1 (o_node _ HO p k o)) as (y & Hy & _); [eauto|]. congruence. }
    apply (Inv_outputs s.1); try reflexivity; simpl.
    - exact HInv.
    - constructor; simpl.
      + intros n k o'. destruct (decide (o' = o)) as [->|Hne].
        * rewrite lookup_insert. split.
          -- intros (z & Ez & Hk). destruct (decide (n = p)) as [->|Hn].
             ++ rewrite lookup_insert in Ez. injection Ez as <-. simpl in Hk. eexists. split; [reflexivity|]. split; [reflexivity|]. simpl.
                apply lookup_app_Some in Hk as [Hk|[Hle Hk]]; [exfalso; apply Hno; eapply elem_of_list_lookup_2; exact Hk|].
                destruct (k - length (nd_outputs nd)) as [|r] eqn:Er; [lia|discriminate].
             ++ rewrite lookup_insert_ne in Ez by auto. destruct (proj1 (o_node _ HO n k o)) as (y & Hy & _); [eauto|]. congruence.
          -- intros (y & Hy & F1 & F2). injection Hy as <-. simpl in F1, F2. injection F1 as <-. rewrite lookup_insert. eexists. split; [reflexivity|].
             simpl. subst k. rewrite lookup_app_r, Nat.sub_diag by lia. reflexivity.
        * rewrite (lookup_insert_ne (outputs s.1)) by auto. rewrite <- (o_node _ HO). destruct (decide (n = p)) as [->|Hn].
          -- rewrite lookup_insert, Hp. split; intros (z & Ez & Hk); injection Ez as <-; eexists; (split; [reflexivity|]).
             ++ simpl in Hk. apply lookup_app_Some in Hk as [Hk|[Hle Hk]]; [exact Hk|].
                destruct (k - length (nd_outputs nd)) as [|r] eqn:Er; [|discriminate]. simpl in Hk. congruence.
             ++ simpl. now apply lookup_app_l_Some.
          -- rewrite lookup_insert_ne by auto. reflexivity.
      + intros k o'. rewrite (o_arg _ HO). destruct (decide (o' = o)) as [->|Hne].
        * rewrite lookup_insert, Ho. split; intros (y & Hy & F & _); [discriminate|injection Hy as <-; discriminate].
        * rewrite lookup_insert_ne by auto. reflexivity.
    - intros o' y Hy _. exists y. rewrite lookup_insert_ne by congruence. auto.
    - intros o' y' Hy'. destruct (decide (o' = o)) as [->|Hne]; [rewrite lookup_insert in Hy'; injection Hy' as <-; now left|].
      rewrite lookup_insert_ne in Hy' by auto. right. eauto.
    - intros n. destruct (decide (n = p)) as [->|Hn]; [rewrite lookup_insert, Hp; reflexivity|now rewrite lookup_insert_ne by auto].
    - intros n z z' Ez Ez'. assert (forall o', o' <> o -> nusers (set_nodes <[p:=with_outputs (nd_outputs nd ++ [o]) nd]>
        (set_outputs <[o:={| out_owner := ONode p; out_users := []; out_nusers := 0; out_index := length (nd_outputs nd); out_type := ty |}]> s.1)) o' = nusers s.1 o') as U.
      { intros o' Hne. unfold nusers. simpl. now rewrite lookup_insert_ne by auto. }
      destruct (decide (n = p)) as [->|Hn].
      + rewrite lookup_insert in Ez'. injection Ez' as <-. rewrite Hp in Ez. injection Ez as <-. simpl. unfold total.
        rewrite sum_list_with_app. cbn [sum_list_with]. unfold nusers at 2. simpl. rewrite lookup_insert. simpl.
        rewrite Nat.add_0_r. apply total_ext. intros o' Ho'. apply U. intros ->. contradiction.
      + rewrite lookup_insert_ne in Ez' by auto. rewrite Ez in Ez'. injection Ez' as <-. apply total_ext. intros o' Ho'. apply U.
        intros ->. apply elem_of_list_lookup in Ho' as [k Hk]. destruct (proj1 (o_node _ HO n k o)) as (y & Hy & _); [eauto|]. congruence.
  Qed.

  Lemma remove_outputs_ok p ix (s : region * T) nd : Inv s.1 -> nodes s.1 !! p = Some nd ->
    exists s' live, remove_outputs p ix s = Some s' /\ Inv s'.1 /\ s'.2 = s.2 /\
      nodes s'.1 = <[p := with_outputs live nd]> (nodes s.1) /\ live `sublist_of` nd_outputs nd /\
      (forall o, o ∈ nd_outputs nd -> (o ∈ live <-> ~ exists y, outputs s.1 !! o = Some y /\ out_users y = [] /\ out_index y ∈ ix)) /\
      (forall o, users_of s'.1 o = users_of s.1 o) /\
      (forall o, is_output s'.1 o <-> is_output s.1 o /\ (o ∈ nd_outputs nd -> o ∈ live)) /\
      inputs s'.1 = inputs s.1 /\ args s'.1 = args s.1 /\ results s'.1 = results s.1 /\ next_id s'.1 = next_id s.1.
  Proof.
    intros HInv Hp. pose proof (v_core _ HInv) as [HE HO HB]. unfold remove_outputs.
    assert (forall o, o ∈ nd_outputs nd -> is_output s.1 o) as Hout.
    { intros o Ho. apply elem_of_list_lookup in Ho as [k Hk]. destruct (proj1 (o_node _ HO p k o)) as (y & Hy & _); [eauto|]. eexists; exact Hy. }
    pose proof (OwnO_nodup _ _ _ HO Hp) as Hnd.
    destruct (decide (ix = [])) as [->|Hix].
    { exists s, (nd_outputs nd). split; [reflexivity|]. split; [exact HInv|]. split; [reflexivity|].
      split; [symmetry; apply insert_id; rewrite Hp; destruct nd; reflexivity|]. split; [reflexivity|].
      split; [intros o Ho; split; [intros _ (y & _ & _ & H); inversion H|auto]|]. split; [reflexivity|]. split; [intros o; tauto|auto]. }
    rewrite Hp. simpl. destruct (remove_outputs_loop_ok false ix (nd_outputs nd) [] s.1 Hout Hnd) as (m & live & E & Hsub & H1 & H2 & H3).
    rewrite E. simpl. assert (forall o, o ∈ live -> o ∈ nd_outputs nd) as Hsub' by (intros o H; eapply elem_of_submseteq; [exact H|now apply sublist_submseteq]).
    assert (NoDup live) as Hndl by (eapply sublist_nodup; eassumption).
    eexists _, live. split; [reflexivity|]. split; [|split; [reflexivity|split; [reflexivity|split; [exact Hsub|split; [|split; [|split; [|auto]]]]]]].
    - apply (Inv_outputs s.1); try reflexivity; simpl.
      + exact HInv.
      + constructor; simpl.
        * intros n k o. destruct (decide (n = p)) as [->|Hn].
          -- rewrite lookup_insert. split.
             ++ intros (z & Ez & Hk). injection Ez as <-. simpl in Hk. destruct (H3 k o Hk) as (y & A & B & _). rewrite B. eexists. split; [reflexivity|].
                simpl. split; [|reflexivity]. eapply OwnO_arg_not_node; [exact HO|exact A|exact Hp|]. apply Hsub'. eapply elem_of_list_lookup_2; exact Hk.
             ++ intros (y & Hy & F1 & F2). eexists. split; [reflexivity|]. simpl. destruct (decide (o ∈ live)) as [Hol|Hol].
                ** apply elem_of_list_lookup in Hol as [k' Hk']. destruct (H3 k' o Hk') as (y' & A & B & _). rewrite B in Hy. injection Hy as <-. simpl in F2. now rewrite <- F2.
                ** exfalso. destruct (decide (o ∈ nd_outputs nd)) as [Hon|Hon].
                   --- destruct (H2 o Hon Hol) as [D _]. congruence.
                   --- rewrite (H1 o Hon) in Hy. destruct (OwnO_owner _ _ _ _ HO Hy F1) as (z & Ez & Hz). rewrite Hp in Ez. injection Ez as <-. contradiction.
          -- rewrite lookup_insert_ne by auto. rewrite (o_node _ HO). split; intros (y & Hy & F1 & F2).
             ++ assert (o ∉ nd_outputs nd). { intros Ho. pose proof (OwnO_arg_not_node _ _ _ _ _ HO Hy Hp Ho). congruence. }
                exists y. rewrite (H1 o H). auto.
             ++ destruct (decide (o ∈ nd_outputs nd)) as [Ho|Ho]; [|exists y; rewrite <- (H1 o Ho); auto].
                destruct (decide (o ∈ live)) as [Hol|Hol]; [|destruct (H2 o Ho Hol); congruence].
                apply elem_of_list_lookup in Hol as [k' Hk']. destruct (H3 k' o Hk') as (y' & A & B & _). rewrite B in Hy. injection Hy as <-. simpl in F1.
                pose proof (OwnO_arg_not_node _ _ _ _ _ HO A Hp Ho). congruence.
        * intros k o. rewrite (o_arg _ HO). split; intros (y & Hy & F1 & F2).
          -- assert (o ∉ nd_outputs nd). { intros Ho. pose proof (OwnO_arg_not_node _ _ _ _ _ HO Hy Hp Ho). congruence. }
             exists y. rewrite (H1 o H). auto.
          -- destruct (decide (o ∈ nd_outputs nd)) as [Ho|Ho]; [|exists y; rewrite <- (H1 o Ho); auto].
             destruct (decide (o ∈ live)) as [Hol|Hol]; [|destruct (H2 o Ho Hol); congruence].
             apply elem_of_list_lookup in Hol as [k' Hk']. destruct (H3 k' o Hk') as (y' & A & B & _). rewrite B in Hy. injection Hy as <-. simpl in F1.
             pose proof (OwnO_arg_not_node _ _ _ _ _ HO A Hp Ho). congruence.
      + intros o y Hy Hu. destruct (decide (o ∈ nd_outputs nd)) as [Ho|Ho]; [|exists y; rewrite (H1 o Ho); auto].
        destruct (decide (o ∈ live)) as [Hol|Hol].
        * apply elem_of_list_lookup in Hol as [k' Hk']. destruct (H3 k' o Hk') as (y' & A & B & _). rewrite B. eexists. split; [reflexivity|].
          simpl. rewrite Hy in A. injection A as <-. auto.
        * destruct (H2 o Ho Hol) as (_ & y' & A & B & _). rewrite Hy in A. injection A as <-. destruct (e_nodup _ _ HE o y Hy) as [_ L]. rewrite B in L.
          destruct (out_users y); [contradiction|discriminate].
      + intros o y' Hy'. right. destruct (decide (o ∈ nd_outputs nd)) as [Ho|Ho]; [|exists y'; rewrite <- (H1 o Ho); auto].
        destruct (decide (o ∈ live)) as [Hol|Hol]; [|destruct (H2 o Ho Hol); congruence].
        apply elem_of_list_lookup in Hol as [k' Hk']. destruct (H3 k' o Hk') as (y & A & B & _). rewrite B in Hy'. injection Hy' as <-. exists y. auto.
      + intros n. destruct (decide (n = p)) as [->|Hn]; [rewrite lookup_insert, Hp; reflexivity|now rewrite lookup_insert_ne by auto].
      + intros n z z' Ez Ez'. destruct (decide (n = p)) as [->|Hn].
        * rewrite lookup_insert in Ez'. injection Ez' as <-. rewrite Hp in Ez. injection Ez as <-. simpl.
          apply total_sublist; [exact Hnd|exact Hsub| |].
          -- intros o Ho. apply elem_of_list_lookup in Ho as [k Hk]. destruct (H3 k o Hk) as (y & A & B & _). unfold nusers. simpl. rewrite A, B. reflexivity.
          -- intros o Ho Hol. destruct (H2 o Ho Hol) as (_ & y & A & B & _). unfold nusers. rewrite A. exact B.
        * rewrite lookup_insert_ne in Ez' by auto. rewrite Ez in Ez'. injection Ez' as <-. apply total_ext. intros o Ho. unfold nusers. simpl.
          rewrite H1; [reflexivity|]. intros Ho'. apply Hn. eapply OwnO_unique; eassumption.
    - intros o Ho. split.
      + intros Hol (y & Hy & Hu & Hx). apply elem_of_list_lookup in Hol as [k Hk]. destruct (H3 k o Hk) as (y' & A & B & C).
        rewrite Hy in A. injection A as <-. apply C. split; [|now right]. destruct (e_nodup _ _ HE o y Hy) as [_ ->]. now rewrite Hu.
      + intros Hn. destruct (decide (o ∈ live)) as [|Hol]; [assumption|]. exfalso. apply Hn. destruct (H2 o Ho Hol) as (_ & y & A & B & [D|C]); [discriminate|].
        exists y. split; [exact A|]. split; [|exact C]. destruct (e_nodup _ _ HE o y A) as [_ L]. rewrite B in L. destruct (out_users y); [reflexivity|discriminate].
    - intros o. unfold users_of. simpl. destruct (decide (o ∈ nd_outputs nd)) as [Ho|Ho]; [|now rewrite (H1 o Ho)].
      destruct (decide (o ∈ live)) as [Hol|Hol].
      + apply elem_of_list_lookup in Hol as [k Hk]. destruct (H3 k o Hk) as (y' & A & B & C). rewrite A, B. reflexivity.
      + destruct (H2 o Ho Hol) as (D & y & A & B & _). rewrite D, A. destruct (e_nodup _ _ HE o y A) as [_ L]. rewrite B in L. destruct (out_users y); [reflexivity|discriminate].
    - intros o. unfold is_output. simpl. destruct (decide (o ∈ nd_outputs nd)) as [Ho|Ho]; [|rewrite (H1 o Ho); tauto].
      destruct (decide (o ∈ live)) as [Hol|Hol].
      + apply elem_of_list_lookup in Hol as [k Hk]. pose proof (elem_of_list_lookup_2 _ _ _ Hk). destruct (H3 k o Hk) as (y' & A & B & C). rewrite A, B. split; [intros _|]; eauto.
      + destruct (H2 o Ho Hol) as (D & y & A & B & _). rewrite D. split; [intros [? X]; discriminate|]. intros [_ X]. exfalso. auto.
  Qed.
End Ops.
