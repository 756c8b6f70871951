From stdpp Require Import base list gmap.
From Verif.Region Require Import Model Spec Proofs Proofs2 Proofs3.

(** ** node destruction *)
Definition add_back (p : ptr) (nd : node) (al : ilist) (s : region) : region := set_nodes <[p := nd]> (set_all al s).
Lemma remove_user_add_back p nd al i s s' : nodes s !! p = None -> remove_user i s = Some s' ->
  remove_user i (add_back p nd al s) = Some (add_back p nd al s').
Proof.
  intros Hp. unfold remove_user, add_back. simpl. destruct (inputs s !! i) as [x|]; [|discriminate]. simpl.
  destruct (in_origin x) as [o|]; [|discriminate]. simpl. destruct (outputs s !! o) as [y|]; [|discriminate]. simpl.
  destruct (decide (i ∈ out_users y)); [|discriminate]. destruct (out_owner y) as [n|].
  - destruct (nodes s !! n) as [md|] eqn:Hn; [|discriminate]. simpl.
    assert (p <> n) by congruence. rewrite lookup_insert_ne by auto. rewrite Hn. simpl.
    destruct (decide (pred (nd_succ md) = 0)).
    + unfold on_bottom_added. simpl. destruct (il_push n (bottom s)) as [l|]; [|discriminate]. simpl. intros E. injection E as <-.
      f_equal. unfold set_bottom, set_nodes, set_all. simpl. f_equal. apply insert_commute. auto.
    + intros E. injection E as <-. f_equal. unfold set_bottom, set_nodes, set_all. simpl. f_equal. apply insert_commute. auto.
  - intros E. injection E as <-. reflexivity.
Qed.
Lemma destroy_inputs_add_back p nd al l : forall s, nodes s !! p = None -> Core None s ->
  (forall i, i ∈ l -> is_input s i) -> NoDup l ->
  exists s', destroy_inputs l s = Some s' /\ destroy_inputs l (add_back p nd al s) = Some (add_back p nd al s') /\
    Core None s' /\ same_shape s s' /\ inputs s' = foldr delete (inputs s) l /\
    (forall o j, j ∈ users_of s' o <-> j ∈ users_of s o /\ j ∉ l).
Proof.
  induction l as [|i l IH]; intros s Hp HC Hl Hnd; simpl.
  - exists s. split; [reflexivity|]. split; [reflexivity|]. split; [assumption|]. split; [apply same_shape_refl|]. split; [reflexivity|].
    intros o j. split; [intros H; split; [exact H|intros X; inversion X]|tauto].
  - apply NoDup_cons in Hnd as [Hni Hnd]. destruct (Hl i (elem_of_list_here i l)) as [x Hx].
    destruct (destroy_input_ok i x s HC Hx) as (s1 & o & Ho & E & HC1 & HS1 & HI1 & HU1). rewrite E. simpl.
    assert (destroy_input i (add_back p nd al s) = Some (add_back p nd al s1)) as E2.
    { unfold destroy_input in *. destruct (remove_user i s) as [s0|] eqn:E0; [|discriminate]. simpl in E. injection E as <-.
      rewrite (remove_user_add_back p nd al i s s0 Hp E0). reflexivity. }
    rewrite E2. simpl. destruct (IH s1) as (s2 & E3 & E4 & HC2 & HS2 & HI2 & HU2).
    + pose proof (ss_nodes _ _ HS1 p) as K. rewrite Hp in K. destruct (nodes s1 !! p); [discriminate|reflexivity].
    + exact HC1.
    + intros j Hj. assert (j <> i) by (intros ->; contradiction). unfold is_input. rewrite HI1, lookup_delete_ne by auto. apply Hl. now right.
    + exact Hnd.
    + exists s2. split; [exact E3|]. split; [exact E4|]. split; [exact HC2|]. split; [eapply same_shape_trans; eassumption|].
      split.
      * rewrite HI2, HI1. clear. induction l as [|a l IH]; simpl; [reflexivity|]. rewrite IH. apply delete_commute.
      * intros o' j. rewrite HU2, HU1. destruct (decide (o' = o)) as [->|Hne].
        -- rewrite elem_of_list_filter, not_elem_of_cons. tauto.
        -- rewrite not_elem_of_cons. split; [|tauto]. intros [Hj Hjl]. split; [exact Hj|]. split; [|exact Hjl]. intros ->.
           unfold users_of in Hj. destruct (outputs s !! o') as [y'|] eqn:Hy'; [|inversion Hj].
           destruct (e_users _ _ (k_e _ _ HC) o' y' i Hy' Hj) as (z & Hz & Hzo). congruence.
Qed.
Lemma lookup_foldr_delete {A} (m : gmap ptr A) (l : list ptr) k : foldr delete m l !! k = if decide (k ∈ l) then None else m !! k.
Proof.
  induction l as [|a l IH]; cbn [foldr].
  - destruct (decide (k ∈ [])) as [H|H]; [inversion H|reflexivity].
  - destruct (decide (k = a)) as [->|Hne].
    + rewrite lookup_delete, decide_True; [reflexivity|now left].
    + rewrite lookup_delete_ne by auto. rewrite IH. destruct (decide (k ∈ l)).
      * rewrite decide_True; [reflexivity|now right].
      * rewrite decide_False; [reflexivity|]. intros H. apply elem_of_cons in H as [H|H]; contradiction.
Qed.
Lemma OwnI_nodup s n nd : OwnI s -> nodes s !! n = Some nd -> NoDup (nd_inputs nd).
Proof.
  intros H Hn. apply NoDup_alt. intros k k' o Hk Hk'.
  destruct (proj1 (i_node _ H n k o)) as (y & Hy & _ & E1). { eauto. }
  destruct (proj1 (i_node _ H n k' o)) as (y' & Hy' & _ & E2). { eauto. } congruence.
Qed.
Lemma dead_no_users s n nd o y : Core None s -> nodes s !! n = Some nd -> nd_succ nd = 0 -> o ∈ nd_outputs nd -> outputs s !! o = Some y -> out_users y = [].
Proof.
  intros [HE HO HB] Hn Hz Ho Hy. pose proof (b_succ _ HB n nd Hn) as E. rewrite Hz in E.
  assert (nusers s o = 0) as K.
  { clear -E Ho. unfold total in E. symmetry in E. revert E Ho. generalize (nd_outputs nd). induction l as [|a l IH]; intros E Ho; [inversion Ho|].
    cbn [sum_list_with] in E. apply elem_of_cons in Ho as [->|Ho]; [lia|apply IH; [lia|assumption]]. }
  unfold nusers in K. rewrite Hy in K. destruct (e_nodup _ _ HE o y Hy) as [_ L]. rewrite K in L. destruct (out_users y); [reflexivity|discriminate].
Qed.

Lemma node_dtor_ok p nd s : Inv s -> nodes s !! p = Some nd -> nd_succ nd = 0 ->
  exists s', node_dtor p s = Some s' /\ Inv s' /\ nodes s' !! p = None /\
    (forall n, n <> p -> shape_node <$> nodes s' !! n = shape_node <$> nodes s !! n) /\
    (forall o, shape_out <$> outputs s' !! o = if decide (o ∈ nd_outputs nd) then None else shape_out <$> outputs s !! o) /\
    inputs s' = foldr delete (inputs s) (nd_inputs nd) /\
    (forall o j, j ∈ users_of s' o <-> j ∈ users_of s o /\ j ∉ nd_inputs nd) /\
    args s' = args s /\ results s' = results s /\ next_id s' = next_id s.
Proof.
  intros [HC HI HT HA HD] Hp Hz. pose proof HC as [HE HO HB].
  unfold node_dtor. rewrite Hp. simpl. rewrite decide_True by assumption.
  destruct (il_erase_ok p (bottom s) (b_ok _ HB)) as (lb & Eb & Ob & Mb). { apply (b_iff _ HB). eauto. }
  destruct (il_erase_ok p (all_nodes s) (proj1 HA)) as (la & Ea & Oa & Ma). { apply (proj2 HA). eauto. }
  unfold on_bottom_removed. simpl. rewrite Eb. simpl.
  set (s1 := set_bottom lb (set_outputs (fun m => foldr delete m (nd_outputs nd)) s)).
  assert (exists lt, (if decide (nd_inputs nd = []) then on_top_removed p s1 else Some s1) = Some (set_top lt s1) /\ il_ok lt /\
    forall n, n ∈ il_elems lt <-> n ∈ il_elems (top s) /\ n <> p) as (lt & Et & Ot & Mt).
  { destruct (decide (nd_inputs nd = [])) as [Hnil|Hnil].
    - unfold on_top_removed. simpl. destruct (il_erase_ok p (top s) (proj1 HT)) as (lt & Et & Ot & Mt). { apply (proj2 HT). eauto. }
      rewrite Et. simpl. eauto.
    - exists (top s). split; [reflexivity|]. split; [apply HT|]. intros n. split; [|tauto]. intros H. split; [exact H|]. intros ->.
      apply (proj2 HT) in H as (z & Ez & Ez'). congruence. }
  rewrite Et. simpl.
  set (sv := set_nodes (delete p) (set_all la (set_top lt s1))).
  assert (set_top lt s1 = add_back p nd (all_nodes s) sv) as Esv.
  { unfold sv, s1, add_back, set_all, set_nodes, set_top, set_bottom. simpl. f_equal. symmetry. rewrite insert_delete_insert. now rewrite insert_id. }
  assert (forall o y, outputs sv !! o = Some y -> outputs s !! o = Some y /\ o ∉ nd_outputs nd) as Osv.
  { intros o y Hy. simpl in Hy. rewrite lookup_foldr_delete in Hy. destruct (decide (o ∈ nd_outputs nd)); [discriminate|auto]. }
  assert (forall o y, outputs s !! o = Some y -> o ∉ nd_outputs nd -> outputs sv !! o = Some y) as Osv'.
  { intros o y Hy Ho. simpl. rewrite lookup_foldr_delete. now rewrite decide_False. }
  assert (Core None sv) as HCv.
  { constructor.
    - constructor.
      + intros i x Hx _. destruct (e_in _ _ HE i x Hx ltac:(discriminate)) as (o & y & F1 & F2 & F3 & F4). exists o, y.
        split; [assumption|]. split; [|auto]. apply Osv'; [assumption|]. intros Ho.
        rewrite (dead_no_users s p nd o y HC Hp Hz Ho F2) in F3. inversion F3.
      + intros i x _ D. discriminate.
      + intros o y i Hy Hi. apply Osv in Hy as [Hy _]. exact (e_users _ _ HE o y i Hy Hi).
      + intros o y Hy. apply Osv in Hy as [Hy _]. exact (e_nodup _ _ HE o y Hy).
    - constructor.
      + intros n k o. split.
        * intros (z & Ez & Hk). simpl in Ez. destruct (decide (n = p)) as [->|Hne]; [rewrite lookup_delete in Ez; discriminate|].
          rewrite lookup_delete_ne in Ez by auto. destruct (proj1 (o_node _ HO n k o)) as (y & Hy & F). { eauto. }
          exists y. split; [|exact F]. apply Osv'; [exact Hy|]. intros Ho. apply Hne. eapply (OwnO_unique s o n p); [exact HO|exact Ez|exact Hp| |exact Ho].
          eapply elem_of_list_lookup_2; eassumption.
        * intros (y & Hy & F1 & F2). apply Osv in Hy as [Hy Ho]. destruct (proj2 (o_node _ HO n k o)) as (z & Ez & Hk). { eauto. }
          exists z. split; [|exact Hk]. simpl. rewrite lookup_delete_ne; [exact Ez|]. intros ->. rewrite Hp in Ez. injection Ez as <-.
          apply Ho. eapply elem_of_list_lookup_2; eassumption.
      + intros k o. change (args sv) with (args s). rewrite (o_arg _ HO). split.
        * intros (y & Hy & F1 & F2). exists y. split; [|auto]. apply Osv'; [exact Hy|]. intros Ho.
          pose proof (OwnO_arg_not_node _ _ _ _ _ HO Hy Hp Ho). congruence.
        * intros (y & Hy & F). apply Osv in Hy as [Hy _]. eauto.
    - constructor.
      + intros n z Ez. simpl in Ez. destruct (decide (n = p)) as [->|Hne]; [rewrite lookup_delete in Ez; discriminate|].
        rewrite lookup_delete_ne in Ez by auto. rewrite (b_succ _ HB n z Ez). apply total_ext. intros o Ho. unfold nusers. simpl.
        rewrite lookup_foldr_delete. rewrite decide_False; [reflexivity|]. intros Ho'. apply Hne. eapply OwnO_unique; eassumption.
      + exact Ob.
      + intros n. simpl. rewrite Mb, (b_iff _ HB). destruct (decide (n = p)) as [->|Hne].
        * rewrite lookup_delete. split; [tauto|]. intros (z & D & _). discriminate.
        * rewrite lookup_delete_ne by auto. tauto. }
  rewrite Esv.
  destruct (destroy_inputs_add_back p nd (all_nodes s) (nd_inputs nd) sv) as (s' & _ & E2 & HC' & HS' & HI' & HU').
  { simpl. apply lookup_delete. } { exact HCv. }
  { intros i Hi. apply elem_of_list_lookup in Hi as [k Hk]. destruct (proj1 (i_node _ HI p k i)) as (x & Hx & _). { eauto. } eexists; exact Hx. }
  { eapply OwnI_nodup; eassumption. }
  rewrite E2. simpl. unfold on_node_removed, add_back. simpl. rewrite Ea. simpl.
  assert (nodes s' !! p = None) as Hnone.
  { pose proof (ss_nodes _ _ HS' p) as K. simpl in K. rewrite lookup_delete in K. destruct (nodes s' !! p); [discriminate|reflexivity]. }
  assert (set_nodes (delete p) (set_all la (set_nodes <[p:=nd]> (set_all (all_nodes s) s'))) = s') as Efin.
  { unfold set_nodes, set_all. simpl. rewrite delete_insert by exact Hnone. pose proof (ss_all _ _ HS') as Q. simpl in Q. rewrite <- Q. destruct s'; reflexivity. }
  rewrite Efin. exists s'. split; [reflexivity|].
  assert (forall n, n <> p -> shape_node <$> nodes s' !! n = shape_node <$> nodes s !! n) as HSn.
  { intros n Hne. rewrite <- (ss_nodes _ _ HS'). simpl. rewrite lookup_delete_ne by auto. reflexivity. }
  assert (forall n z, nodes s' !! n = Some z -> n <> p /\ exists z0, nodes s !! n = Some z0 /\ shape_node z0 = shape_node z) as Hr.
  { intros n z Ez. assert (n <> p) as Hne by congruence. split; [exact Hne|]. specialize (HSn n Hne). rewrite Ez in HSn.
    destruct (nodes s !! n) as [z0|]; [|discriminate]. exists z0. split; [reflexivity|]. simpl in HSn. congruence. }
  assert (forall n z, nodes s !! n = Some z -> n <> p -> exists z0, nodes s' !! n = Some z0 /\ shape_node z0 = shape_node z) as Hl.
  { intros n z Ez Hne. specialize (HSn n Hne). rewrite Ez in HSn.
    destruct (nodes s' !! n) as [z0|]; [|discriminate]. exists z0. split; [reflexivity|]. simpl in HSn. congruence. }
  assert (forall i x, inputs s' !! i = Some x <-> inputs s !! i = Some x /\ i ∉ nd_inputs nd) as Hin.
  { intros i x. rewrite HI'. simpl. rewrite lookup_foldr_delete. destruct (decide (i ∈ nd_inputs nd)); split; [discriminate|tauto|auto|tauto]. }
  split; [constructor|].
  - exact HC'.
  - constructor.
    + intros n k i. split.
      * intros (z & Ez & Hk). destruct (Hr n z Ez) as (Hne & z0 & Ez0 & Sh). apply shape_node_inv in Sh as (_ & Sh & _).
        destruct (proj1 (i_node _ HI n k i)) as (x & Hx & F1 & F2). { exists z0. rewrite Sh. auto. }
        exists x. split; [|auto]. apply Hin. split; [exact Hx|]. intros H. apply elem_of_list_lookup in H as [k' Hk'].
        destruct (proj1 (i_node _ HI p k' i)) as (x' & Hx' & F3 & F4). { eauto. } congruence.
      * intros (x & Hx & F1 & F2). apply Hin in Hx as [Hx Hni]. destruct (proj2 (i_node _ HI n k i)) as (z & Ez & Hk). { eauto. }
        assert (n <> p). { intros ->. rewrite Hp in Ez. injection Ez as <-. apply Hni. eapply elem_of_list_lookup_2; eassumption. }
        destruct (Hl n z Ez H) as (z0 & Ez0 & Sh). apply shape_node_inv in Sh as (_ & Sh & _). exists z0. rewrite Sh. auto.
    + intros k i. rewrite (ss_results _ _ HS'). change (results sv) with (results s). rewrite (i_res _ HI). split.
      * intros (x & Hx & F1 & F2). exists x. split; [|auto]. apply Hin. split; [exact Hx|]. intros H. apply elem_of_list_lookup in H as [k' Hk'].
        destruct (proj1 (i_node _ HI p k' i)) as (x' & Hx' & F3 & F4). { eauto. } congruence.
      * intros (x & Hx & F). apply Hin in Hx as [Hx _]. eauto.
  - split; rewrite (ss_top _ _ HS'); simpl; [exact Ot|]. intros n. rewrite Mt, (proj2 HT). split.
    + intros [(z & Ez & Hz') Hne]. destruct (Hl n z Ez Hne) as (z0 & Ez0 & Sh). apply shape_node_inv in Sh as (_ & Sh & _). exists z0. split; congruence.
    + intros (z & Ez & Hz'). destruct (Hr n z Ez) as (Hne & z0 & Ez0 & Sh). apply shape_node_inv in Sh as (_ & Sh & _). split; [|exact Hne]. exists z0. split; congruence.
  - split; rewrite (ss_all _ _ HS'); simpl; [exact Oa|]. intros n. rewrite Ma, (proj2 HA). split.
    + intros [[z Ez] Hne]. destruct (Hl n z Ez Hne) as (z0 & Ez0 & _). eauto.
    + intros [z Ez]. destruct (Hr n z Ez) as (Hne & z0 & Ez0 & _). eauto.
  - destruct HD as [D1 D2]. split; rewrite ?(ss_id _ _ HS').
    + intros n z Ez. destruct (Hr n z Ez) as (Hne & z0 & Ez0 & Sh). apply shape_node_inv in Sh as (Sh & _). rewrite <- Sh. exact (D1 n z0 Ez0).
    + intros n m z1 z2 E1' E2' E3. destruct (Hr n z1 E1') as (_ & y1 & Y1 & S1). destruct (Hr m z2 E2') as (_ & y2 & Y2 & S2).
      apply shape_node_inv in S1 as (S1 & _). apply shape_node_inv in S2 as (S2 & _). eapply D2; [exact Y1|exact Y2|congruence].
  - split; [exact Hnone|]. split; [exact HSn|]. split.
    { intros o. rewrite <- (ss_outputs _ _ HS'). simpl. rewrite lookup_foldr_delete. destruct (decide (o ∈ nd_outputs nd)); reflexivity. }
    split; [exact HI'|]. split.
    { intros o j. rewrite HU'. split; [|].
      - intros [H1 H2]. split; [|exact H2]. unfold users_of in *. destruct (outputs sv !! o) as [y|] eqn:Ey; [|inversion H1].
        apply Osv in Ey as [Ey _]. now rewrite Ey.
      - intros [H1 H2]. split; [|exact H2]. unfold users_of in *. destruct (outputs s !! o) as [y|] eqn:Ey; [|inversion H1].
        destruct (decide (o ∈ nd_outputs nd)) as [Ho|Ho]; [rewrite (dead_no_users s p nd o y HC Hp Hz Ho Ey) in H1; inversion H1|].
        now rewrite (Osv' o y Ey Ho). }
    split; [rewrite (ss_args _ _ HS'); reflexivity|]. split; [rewrite (ss_results _ _ HS'); reflexivity|]. rewrite (ss_id _ _ HS'); reflexivity.
Qed.
