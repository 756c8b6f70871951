From stdpp Require Import base list gmap.
From Verif.Region Require Import Model Spec Proofs Proofs2.

(** ** node construction *)
Lemma node_ctor_ok p s : Inv s -> nodes s !! p = None ->
  exists s', node_ctor p s = Some s' /\ Inv s' /\
    nodes s' = <[p := {| nd_id := next_id s; nd_inputs := []; nd_outputs := []; nd_succ := 0 |}]> (nodes s) /\
    inputs s' = inputs s /\ outputs s' = outputs s /\ args s' = args s /\ results s' = results s /\ next_id s' = S (next_id s).
Proof.
  intros [[HE HO HB] HI HT HA HD] Hp. unfold node_ctor.
  assert (p ∉ il_elems (bottom s)) as N1. { intros H. apply (b_iff _ HB) in H as (nd & E & _). congruence. }
  assert (p ∉ il_elems (top s)) as N2. { intros H. apply (proj2 HT) in H as (nd & E & _). congruence. }
  assert (p ∉ il_elems (all_nodes s)) as N3. { intros H. apply (proj2 HA) in H as (nd & E). congruence. }
  destruct (il_push_ok p (bottom s) (b_ok _ HB) N1) as (lb & Eb & Ob & Mb).
  destruct (il_push_ok p (top s) (proj1 HT) N2) as (lt & Et & Ot & Mt).
  destruct (il_push_ok p (all_nodes s) (proj1 HA) N3) as (la & Ea & Oa & Ma).
  unfold on_bottom_added, on_top_added, on_node_added. simpl. rewrite Eb. simpl. rewrite Et. simpl. rewrite Ea. simpl.
  eexists. split; [reflexivity|]. split; [|simpl; auto 10].
  set (nd0 := {| nd_id := next_id s; nd_inputs := []; nd_outputs := []; nd_succ := 0 |}).
  constructor.
  - constructor.
    + constructor; simpl; apply HE.
    + constructor; simpl; [|apply HO]. intros n k o. rewrite <- (o_node _ HO). destruct (decide (n = p)) as [->|Hn].
      * rewrite lookup_insert, Hp. split; intros (nd & E & Hk); [injection E as <-; discriminate|discriminate].
      * rewrite lookup_insert_ne by auto. reflexivity.
    + constructor; simpl.
      * intros n nd Hn. destruct (decide (n = p)) as [->|Hne]; [rewrite lookup_insert in Hn; injection Hn as <-; reflexivity|].
        rewrite lookup_insert_ne in Hn by auto. exact (b_succ _ HB n nd Hn).
      * exact Ob.
      * intros n. rewrite Mb, (b_iff _ HB). destruct (decide (n = p)) as [->|Hne].
        -- rewrite lookup_insert. split; [eauto|]. intros _. now right.
        -- rewrite lookup_insert_ne by auto. split; [intros [H|H]; [exact H|congruence]|auto].
  - constructor; simpl; [|apply HI]. intros n k i. rewrite <- (i_node _ HI). destruct (decide (n = p)) as [->|Hn].
    + rewrite lookup_insert, Hp. split; intros (nd & E & Hk); [injection E as <-; discriminate|discriminate].
    + rewrite lookup_insert_ne by auto. reflexivity.
  - split; [exact Ot|]. simpl. intros n. rewrite Mt, (proj2 HT). destruct (decide (n = p)) as [->|Hne].
    + rewrite lookup_insert. split; [eauto|]. intros _. now right.
    + rewrite lookup_insert_ne by auto. split; [intros [H|H]; [exact H|congruence]|auto].
  - split; [exact Oa|]. simpl. intros n. rewrite Ma, (proj2 HA). destruct (decide (n = p)) as [->|Hne].
    + rewrite lookup_insert. split; [eauto|]. intros _. now right.
    + rewrite lookup_insert_ne by auto. split; [intros [H|H]; [exact H|congruence]|auto].
  - destruct HD as [D1 D2]. split; simpl.
    + intros n nd Hn. destruct (decide (n = p)) as [->|Hne]; [rewrite lookup_insert in Hn; injection Hn as <-; simpl; lia|].
      rewrite lookup_insert_ne in Hn by auto. pose proof (D1 n nd Hn). lia.
    + intros n m nd md Hn Hm E. destruct (decide (n = p)) as [->|Hne], (decide (m = p)) as [->|Hme]; [reflexivity| | |].
      * rewrite lookup_insert in Hn. injection Hn as <-. rewrite lookup_insert_ne in Hm by auto. pose proof (D1 m md Hm). simpl in E. lia.
      * rewrite lookup_insert in Hm. injection Hm as <-. rewrite lookup_insert_ne in Hn by auto. pose proof (D1 n nd Hn). simpl in E. lia.
      * rewrite lookup_insert_ne in Hn, Hm by auto. eapply D2; eassumption.
Qed.

(** ** adding an input to a node *)
Section Ops.
  Context {T : Type} (obs : event -> region -> T -> T).
  Lemma add_input_ok p i o ty b s nd : Inv s.1 -> nodes s.1 !! p = Some nd -> inputs s.1 !! i = None ->
    match add_input obs p i o ty b s with
    | Ok s' => Inv s'.1 /\ check_types o ty s.1 = true /\
        (exists nd', nodes s'.1 !! p = Some nd' /\ nd_inputs nd' = nd_inputs nd ++ [i] /\ nd_outputs nd' = nd_outputs nd /\ nd_id nd' = nd_id nd) /\
        (forall n, n <> p -> shape_node <$> nodes s'.1 !! n = shape_node <$> nodes s.1 !! n) /\
        (forall o', shape_out <$> outputs s'.1 !! o' = shape_out <$> outputs s.1 !! o') /\
        inputs s'.1 = <[i := {| in_owner := ONode p; in_origin := Some o; in_index := length (nd_inputs nd); in_type := ty |}]> (inputs s.1) /\
        args s'.1 = args s.1 /\ results s'.1 = results s.1 /\ next_id s'.1 = next_id s.1 /\
        (forall o', users_of s'.1 o' = if decide (o' = o) then users_of s.1 o ++ [i] else users_of s.1 o') /\
        s'.2 = (if b then obs (EInputCreate i) s'.1 s.2 else s.2)
    | Throws s' => s' = s /\ check_types o ty s.1 = false
    | UB => False
    end.
  Proof.
    intros [HC HI HT HA HD] Hp Hi. unfold add_input. destruct (check_types o ty s.1) eqn:Hc; [|auto].
    destruct (new_input_ok i (ONode p) o ty s.1 HC Hi Hc) as (s1 & E1 & HC1 & HS1 & HI1 & HU1).
    unfold lift at 1. rewrite E1. simpl.
    destruct (ss_node_l _ _ _ _ HS1 Hp) as (nd1 & Hn1 & Sh). apply shape_node_inv in Sh as (Sh1 & Sh2 & Sh3).
    unfold add_input_to_node. simpl. rewrite Hn1. simpl. rewrite HI1, lookup_insert. simpl.
    set (x' := with_in_index (length (nd_inputs nd1)) {| in_owner := ONode p; in_origin := Some o; in_index := 0; in_type := ty |}).
    set (nd' := with_inputs (nd_inputs nd1 ++ [i]) nd1).
    assert (forall s', nodes s' = <[p := nd']> (nodes s1) -> inputs s' = <[i := x']> (inputs s1) -> outputs s' = outputs s1 -> args s' = args s1 ->
       results s' = results s1 -> next_id s' = next_id s1 -> bottom s' = bottom s1 -> all_nodes s' = all_nodes s1 ->
       il_ok (top s') -> (forall n, n ∈ il_elems (top s') <-> n ∈ il_elems (top s1) /\ n <> p) -> Inv s') as K.
    { intros s' En Ei Eo Ea Er Ed Eb El Ok1 Ok2. destruct HC1 as [HE1 HO1 HB1]. constructor.
      - constructor.
        + constructor; rewrite ?Ei, ?Eo.
          * intros j z Hz _. destruct (decide (j = i)) as [->|Hj].
            -- rewrite lookup_insert in Hz. injection Hz as <-. simpl.
               destruct (e_in _ _ HE1 i {| in_owner := ONode p; in_origin := Some o; in_index := 0; in_type := ty |}) as (o2 & y2 & F); [rewrite HI1; apply lookup_insert|discriminate|]. exists o2, y2. exact F.
            -- rewrite lookup_insert_ne in Hz by auto. eapply e_in; [exact HE1|exact Hz|discriminate].
          * intros j z _ D. discriminate.
          * intros o2 y2 j Hy Hj. destruct (e_users _ _ HE1 o2 y2 j Hy Hj) as (z & Hz & Hzo). destruct (decide (j = i)) as [->|Hji].
            -- rewrite lookup_insert. eexists. split; [reflexivity|]. simpl. rewrite HI1, lookup_insert in Hz. injection Hz as <-. exact Hzo.
            -- rewrite lookup_insert_ne by auto. eauto.
          * apply HE1.
        + constructor; rewrite ?En, ?Eo, ?Ea; [|apply HO1]. intros n k o2. rewrite <- (o_node _ HO1). destruct (decide (n = p)) as [->|Hne].
          * rewrite lookup_insert, Hn1. split; intros (z & Hz & Hk); injection Hz as <-; eexists; (split; [reflexivity|]); exact Hk.
          * rewrite lookup_insert_ne by auto. reflexivity.
        + constructor; rewrite ?En, ?Eb.
          * intros n z Hz. assert (total s' (nd_outputs z) = total s1 (nd_outputs z)) as ->.
            { apply total_ext. intros o2 _. unfold nusers. now rewrite Eo. }
            destruct (decide (n = p)) as [->|Hne].
            -- rewrite lookup_insert in Hz. injection Hz as <-. simpl. exact (b_succ _ HB1 p nd1 Hn1).
            -- rewrite lookup_insert_ne in Hz by auto. exact (b_succ _ HB1 n z Hz).
          * apply HB1.
          * intros n. rewrite (b_iff _ HB1). destruct (decide (n = p)) as [->|Hne].
            -- rewrite lookup_insert, Hn1. split; intros (z & Hz & Hk); injection Hz as <-; eexists; (split; [reflexivity|]); exact Hk.
            -- rewrite lookup_insert_ne by auto. reflexivity.
      - assert (forall j ow k, (exists x, inputs s1 !! j = Some x /\ in_owner x = ow /\ in_index x = k) <->
           (exists x, inputs s.1 !! j = Some x /\ in_owner x = ow /\ in_index x = k) \/ (j = i /\ ow = ONode p /\ k = 0)) as HI1'.
        { intros j ow k. rewrite HI1. destruct (decide (j = i)) as [->|Hj].
          - rewrite lookup_insert, Hi. split.
            + intros (z & Hz & E & F). injection Hz as <-. right. simpl in E, F. auto.
            + intros [(z & Hz & _)|(_ & -> & ->)]; [discriminate|]. eexists. split; [reflexivity|]. simpl. auto.
          - rewrite lookup_insert_ne by auto. split; [auto|]. intros [H|[H _]]; [exact H|congruence]. }
        constructor; rewrite ?En, ?Ei, ?Er.
        + intros n k j. destruct (decide (n = p)) as [->|Hne].
          * rewrite lookup_insert. destruct (decide (j = i)) as [->|Hj].
            -- rewrite lookup_insert. split.
               ++ intros (z & Hz & Hk). injection Hz as <-. simpl in Hk. eexists. split; [reflexivity|]. split; [reflexivity|]. simpl.
                  apply lookup_app_Some in Hk as [Hk|[Hle Hk]].
                  ** exfalso. rewrite Sh2 in Hk. destruct (proj1 (i_node _ HI p k i)) as (z & Hz & _); [eauto|]. congruence.
                  ** destruct (k - length (nd_inputs nd1)) as [|r] eqn:Er'; [lia|discriminate].
               ++ intros (z & Hz & _ & Hk). injection Hz as <-. simpl in Hk. eexists. split; [reflexivity|]. simpl. subst k.
                  rewrite lookup_app_r, Nat.sub_diag by lia. reflexivity.
            -- rewrite lookup_insert_ne by auto. rewrite HI1, lookup_insert_ne by auto. rewrite <- (i_node _ HI). rewrite Hp. split.
               ++ intros (z & Hz & Hk). injection Hz as <-. simpl in Hk. exists nd. split; [reflexivity|]. rewrite <- Sh2.
                  apply lookup_app_Some in Hk as [Hk|[Hle Hk]]; [exact Hk|].
                  destruct (k - length (nd_inputs nd1)) as [|r] eqn:Er'; [injection Hk as <-; congruence|discriminate].
               ++ intros (z & Hz & Hk). injection Hz as <-. eexists. split; [reflexivity|]. simpl. apply lookup_app_l_Some. now rewrite Sh2.
          * rewrite lookup_insert_ne by auto. destruct (decide (j = i)) as [->|Hj].
            -- rewrite lookup_insert. split.
               ++ intros (z & Hz & Hk). exfalso. destruct (ss_node_r _ _ _ _ HS1 Hz) as (z0 & Hz0 & Shz). apply shape_node_inv in Shz as (_ & Shz & _).
                  destruct (proj1 (i_node _ HI n k i)) as (z1 & Hz1 & _); [exists z0; rewrite Shz; auto|]. congruence.
               ++ intros (z & Hz & Ho & _). injection Hz as <-. simpl in Ho. congruence.
            -- rewrite lookup_insert_ne by auto. rewrite HI1, lookup_insert_ne by auto. rewrite <- (i_node _ HI).
               split; intros (z & Hz & Hk).
               ++ destruct (ss_node_r _ _ _ _ HS1 Hz) as (z0 & Hz0 & Shz). apply shape_node_inv in Shz as (_ & Shz & _). exists z0. rewrite Shz. auto.
               ++ destruct (ss_node_l _ _ _ _ HS1 Hz) as (z0 & Hz0 & Shz). apply shape_node_inv in Shz as (_ & Shz & _). exists z0. rewrite Shz. auto.
        + intros k j. rewrite (ss_results _ _ HS1), (i_res _ HI). destruct (decide (j = i)) as [->|Hj].
          * rewrite lookup_insert, Hi. split; [intros (z & Hz & _); discriminate|]. intros (z & Hz & Ho & _). injection Hz as <-. discriminate.
          * rewrite lookup_insert_ne by auto. rewrite HI1, lookup_insert_ne by auto. reflexivity.
      - split; [exact Ok1|]. intros n. rewrite Ok2, En. rewrite (proj2 (Top_shape _ _ HS1 HT) n). destruct (decide (n = p)) as [->|Hne].
        + rewrite lookup_insert. split; [tauto|]. intros (z & Hz & Hk). injection Hz as <-. simpl in Hk. destruct (nd_inputs nd1); discriminate.
        + rewrite lookup_insert_ne by auto. tauto.
      - pose proof (AllN_shape _ _ HS1 HA) as [A1 A2]. split; rewrite El; [exact A1|]. intros n. rewrite A2, En.
        destruct (decide (n = p)) as [->|Hne]; [rewrite lookup_insert, Hn1|rewrite lookup_insert_ne by auto; reflexivity].
        split; intros _; eauto.
      - pose proof (Ids_shape _ _ HS1 HD) as [D1 D2]. split; rewrite ?En, ?Ed.
        + intros n z Hz. destruct (decide (n = p)) as [->|Hne]; [rewrite lookup_insert in Hz; injection Hz as <-; exact (D1 p nd1 Hn1)|].
          rewrite lookup_insert_ne in Hz by auto. exact (D1 n z Hz).
        + assert (forall n z, <[p:=nd']> (nodes s1) !! n = Some z -> exists z', nodes s1 !! n = Some z' /\ nd_id z' = nd_id z) as Q.
          { intros n z Hz. destruct (decide (n = p)) as [->|Hne]; [rewrite lookup_insert in Hz; injection Hz as <-; exists nd1; auto|].
            rewrite lookup_insert_ne in Hz by auto. eauto. }
          intros n m nd2 md Hn Hm E. destruct (Q n nd2 Hn) as (z1 & Z1 & Q1). destruct (Q m md Hm) as (z2 & Z2 & Q2). eapply D2; [exact Z1|exact Z2|congruence]. }
    assert (forall s', nodes s' = <[p := nd']> (nodes s1) ->
      (exists nd'0, nodes s' !! p = Some nd'0 /\ nd_inputs nd'0 = nd_inputs nd ++ [i] /\ nd_outputs nd'0 = nd_outputs nd /\ nd_id nd'0 = nd_id nd) /\
      (forall n, n <> p -> shape_node <$> nodes s' !! n = shape_node <$> nodes s.1 !! n)) as K2.
    { intros s' En. rewrite En. split.
      - exists nd'. rewrite lookup_insert. simpl. rewrite Sh1, Sh2, Sh3. auto.
      - intros n Hne. rewrite lookup_insert_ne by auto. symmetry. apply (ss_nodes _ _ HS1). }
    assert (<[i:=x']> (inputs s1) = <[i:={| in_owner := ONode p; in_origin := Some o; in_index := length (nd_inputs nd); in_type := ty |}]> (inputs s.1)) as K3.
    { rewrite HI1, insert_insert. unfold x'. rewrite Sh2. reflexivity. }
    assert (match (if decide (nd_inputs nd1 = []) then lift (on_top_removed p) (s1, s.2) else Some (s1, s.2)) with
      | Some s2 => s2.2 = s.2 /\ nodes s2.1 = nodes s1 /\ inputs s2.1 = inputs s1 /\ outputs s2.1 = outputs s1 /\ args s2.1 = args s1 /\
          results s2.1 = results s1 /\ next_id s2.1 = next_id s1 /\ bottom s2.1 = bottom s1 /\ all_nodes s2.1 = all_nodes s1 /\
          il_ok (top s2.1) /\ (forall n, n ∈ il_elems (top s2.1) <-> n ∈ il_elems (top s1) /\ n <> p)
      | None => False end) as K4.
    { pose proof (Top_shape _ _ HS1 HT) as [T1 T2]. destruct (decide (nd_inputs nd1 = [])) as [Hnil|Hnil].
      - unfold lift, on_top_removed. simpl. destruct (il_erase_ok p (top s1) T1) as (l' & El' & Okl & Ml).
        { apply T2. eauto. } rewrite El'. simpl. auto 15.
      - simpl. repeat (split; [first [reflexivity|exact T1]|]). intros n. split; [|tauto]. intros H. split; [exact H|]. intros ->.
        apply T2 in H as (z & Hz & Hz'). congruence. }
    destruct (if decide (nd_inputs nd1 = []) then lift (on_top_removed p) (s1, s.2) else Some (s1, s.2)) as [s2|]; [|contradiction].
    destruct K4 as (P1 & P2 & P3 & P4 & P5 & P6 & P7 & P8 & P9 & P10 & P11). simpl.
    assert (forall b, s2.2 = s.2 -> (if b : bool then notify obs (EInputCreate i) (set_nodes <[p:=nd']> (set_inputs <[i:=x']> s2.1), s2.2)
       else (set_nodes <[p:=nd']> (set_inputs <[i:=x']> s2.1), s2.2)) =
       (set_nodes <[p:=nd']> (set_inputs <[i:=x']> s2.1), if b then obs (EInputCreate i) (set_nodes <[p:=nd']> (set_inputs <[i:=x']> s2.1)) s.2 else s.2)) as K5.
    { intros b0 E. destruct b0; unfold notify; simpl; congruence. }
    rewrite (K5 b P1). simpl.
    destruct (K2 (set_nodes <[p:=nd']> (set_inputs <[i:=x']> s2.1))) as [K2a K2b]; [simpl; now rewrite P2|].
    split; [apply K; simpl; rewrite ?P2, ?P3; auto|]. split; [reflexivity|]. split; [exact K2a|]. split; [exact K2b|].
    split; [intros o'; simpl; rewrite P4; symmetry; apply (ss_outputs _ _ HS1)|].
    split; [simpl; rewrite P3; exact K3|]. split; [rewrite P5; apply (ss_args _ _ HS1)|]. split; [rewrite P6; apply (ss_results _ _ HS1)|].
    split; [rewrite P7; apply (ss_id _ _ HS1)|]. split; [|reflexivity].
    intros o'. unfold users_of in *. simpl. rewrite P4. apply HU1.
  Qed.
End Ops.
