From stdpp Require Import base list gmap.
From Verif.Region Require Import Model Spec Proofs Proofs2 Proofs3 Proofs4 Proofs5.

(** ** arguments *)
Lemma arg_not_output s o n nd : OwnO s -> o ∈ args s -> nodes s !! n = Some nd -> o ∉ nd_outputs nd.
Proof.
  intros HO Ha Hn Ho. apply elem_of_list_lookup in Ha as [k Hk]. apply (o_arg _ HO) in Hk as (y & Hy & F & _).
  pose proof (OwnO_arg_not_node _ _ _ _ _ HO Hy Hn Ho). congruence.
Qed.
Lemma args_nodup s : OwnO s -> NoDup (args s).
Proof.
  intros HO. apply NoDup_alt. intros k k' o H1 H2. apply (o_arg _ HO) in H1 as (y & Hy & _ & <-). apply (o_arg _ HO) in H2 as (y' & Hy' & _ & <-). congruence.
Qed.
Lemma args_outputs s o : OwnO s -> o ∈ args s -> is_output s o.
Proof. intros HO Ha. apply elem_of_list_lookup in Ha as [k Hk]. apply (o_arg _ HO) in Hk as (y & Hy & _). eexists; exact Hy. Qed.

(** the arguments become [l]; outputs that are not arguments stay, [m] numbers the arguments *)
Lemma Inv_args s l m : Inv s ->
  (forall k o, l !! k = Some o -> exists y, m !! o = Some y /\ out_owner y = ORegion /\ out_index y = k /\
      (outputs s !! o = None /\ out_users y = [] /\ out_nusers y = 0 \/
       o ∈ args s /\ exists y0, outputs s !! o = Some y0 /\ y = with_out_index k y0)) ->
  (forall o, o ∉ l -> o ∉ args s -> m !! o = outputs s !! o) ->
  (forall o, o ∉ l -> o ∈ args s -> m !! o = None /\ users_of s o = []) ->
  Inv (set_args l (set_outputs (fun _ => m) s)).
Proof.
  intros HInv Hl Hsame Hdel. pose proof (v_core _ HInv) as [HE HO HB].
  assert (forall o y, m !! o = Some y -> o ∉ l -> outputs s !! o = Some y /\ o ∉ args s) as Q.
  { intros o y Hy Hn. destruct (decide (o ∈ args s)) as [Ha|Ha]; [destruct (Hdel o Hn Ha); congruence|]. rewrite <- (Hsame o Hn Ha). auto. }
  assert (forall n nd o, nodes s !! n = Some nd -> o ∈ nd_outputs nd -> o ∉ l /\ o ∉ args s) as R.
  { intros n nd o Hn Ho. assert (o ∉ args s) by (intros Ha; eapply arg_not_output; eassumption). split; [|assumption]. intros Hin.
    apply elem_of_list_lookup in Hin as [k Hk]. destruct (Hl k o Hk) as (y & Hy & _ & _ & [(D & _)|(Ha & _)]); [|contradiction].
    apply elem_of_list_lookup in Ho as [j Hj]. destruct (proj1 (o_node _ HO n j o)) as (y1 & Hy1 & _); [eauto|]. congruence. }
  apply (Inv_outputs s); try reflexivity; simpl.
  - exact HInv.
  - constructor; simpl.
    + intros n k o. rewrite (o_node _ HO). split; intros (y & Hy & F1 & F2).
      * destruct (OwnO_owner _ _ _ _ HO Hy F1) as (nd & Hn & Ho). destruct (R n nd o Hn Ho) as [R1 R2]. exists y. rewrite (Hsame o R1 R2). auto.
      * destruct (decide (o ∈ l)) as [Hin|Hn].
        -- apply elem_of_list_lookup in Hin as [j Hj]. destruct (Hl j o Hj) as (y1 & Hy1 & F & _). congruence.
        -- destruct (Q o y Hy Hn) as [Hy0 _]. eauto.
    + intros k o. split.
      * intros Hk. destruct (Hl k o Hk) as (y & Hy & F1 & F2 & _). eauto.
      * intros (y & Hy & F1 & F2). destruct (decide (o ∈ l)) as [Hin|Hn].
        -- apply elem_of_list_lookup in Hin as [j Hj]. destruct (Hl j o Hj) as (y1 & Hy1 & _ & F & _). congruence.
        -- exfalso. destruct (Q o y Hy Hn) as [Hy0 Ha]. apply Ha. eapply elem_of_list_lookup_2. apply (o_arg _ HO). eauto.
  - intros o y Hy Hu. destruct (decide (o ∈ l)) as [Hin|Hn].
    + apply elem_of_list_lookup in Hin as [j Hj]. destruct (Hl j o Hj) as (y1 & Hy1 & _ & _ & [(D & _)|(_ & y0 & Hy0 & ->)]); [congruence|].
      rewrite Hy in Hy0. injection Hy0 as <-. exists (with_out_index j y). auto.
    + destruct (decide (o ∈ args s)) as [Ha|Ha].
      * exfalso. destruct (Hdel o Hn Ha) as [_ D]. unfold users_of in D. rewrite Hy in D. contradiction.
      * exists y. rewrite (Hsame o Hn Ha). auto.
  - intros o y' Hy'. destruct (decide (o ∈ l)) as [Hin|Hn].
    + apply elem_of_list_lookup in Hin as [j Hj]. destruct (Hl j o Hj) as (y1 & Hy1 & _ & _ & [(_ & D)|(_ & y0 & Hy0 & ->)]); [left; congruence|].
      right. exists y0. rewrite Hy1 in Hy'. injection Hy' as <-. auto.
    + destruct (Q o y' Hy' Hn) as [Hy0 _]. right. eauto.
  - intros n nd nd' Hn Hn'. rewrite Hn in Hn'. injection Hn' as <-. apply total_ext. intros o Ho. unfold nusers. simpl.
    destruct (R n nd o Hn Ho) as [R1 R2]. now rewrite (Hsame o R1 R2).
Qed.

Section Ops.
  Context {T : Type} (obs : event -> region -> T -> T).

  Lemma remove_args_ok b ix (s : region * T) : Inv s.1 ->
    exists s' live, ('(r, live) ← remove_outputs_loop b ix (args s.1) [] s.1; Some (set_args live r, s.2)) = Some s' /\
      Inv s'.1 /\ s'.2 = s.2 /\ args s'.1 = live /\ live `sublist_of` args s.1 /\
      (forall o, o ∈ args s.1 -> (o ∈ live <-> ~ exists y, outputs s.1 !! o = Some y /\ out_users y = [] /\ (b = true \/ out_index y ∈ ix))) /\
      (forall o, users_of s'.1 o = users_of s.1 o) /\
      inputs s'.1 = inputs s.1 /\ nodes s'.1 = nodes s.1 /\ results s'.1 = results s.1.
  Proof.
    intros HInv. pose proof (v_core _ HInv) as [HE HO HB].
    destruct (remove_outputs_loop_ok b ix (args s.1) [] s.1 (fun o => args_outputs _ o HO) (args_nodup _ HO)) as (m & live & E & Hsub & H1 & H2 & H3).
    rewrite E. simpl. assert (forall o, o ∈ live -> o ∈ args s.1) as Hsub' by (intros o H; eapply elem_of_submseteq; [exact H|now apply sublist_submseteq]).
    assert (forall o y, outputs s.1 !! o = Some y -> out_nusers y = 0 -> out_users y = []) as Z.
    { intros o y Hy Hz. destruct (e_nodup _ _ HE o y Hy) as [_ L]. rewrite Hz in L. destruct (out_users y); [reflexivity|discriminate]. }
    eexists _, live. split; [reflexivity|]. split; [|split; [reflexivity|split; [reflexivity|split; [exact Hsub|split; [|split; [|auto]]]]]].
    - apply Inv_args; [exact HInv| | |].
      + intros k o Hk. destruct (H3 k o Hk) as (y & A & B & _). rewrite B. eexists. split; [reflexivity|]. simpl.
        assert (o ∈ args s.1) as Ha by (apply Hsub'; eapply elem_of_list_lookup_2; exact Hk).
        apply elem_of_list_lookup in Ha as [k' Hk']. pose proof (elem_of_list_lookup_2 _ _ _ Hk') as Ha. apply (o_arg _ HO) in Hk' as (y0 & Hy0 & F & _). assert (y0 = y) by congruence. subst y0.
        split; [exact F|]. split; [reflexivity|]. right. split; [exact Ha|]. eauto.
      + intros o Hn Ha. apply H1. exact Ha.
      + intros o Hn Ha. destruct (H2 o Ha Hn) as (A & y & B & C & _). split; [exact A|]. unfold users_of. rewrite B. eapply Z; eassumption.
    - intros o Ho. split.
      + intros Hol (y & Hy & Hu & Hx). apply elem_of_list_lookup in Hol as [k Hk]. destruct (H3 k o Hk) as (y' & A & B & C).
        rewrite Hy in A. injection A as <-. apply C. split; [|exact Hx]. destruct (e_nodup _ _ HE o y Hy) as [_ ->]. now rewrite Hu.
      + intros Hn. destruct (decide (o ∈ live)) as [|Hol]; [assumption|]. exfalso. apply Hn. destruct (H2 o Ho Hol) as (_ & y & A & B & C).
        exists y. split; [exact A|]. split; [eapply Z; eassumption|exact C].
    - intros o. unfold users_of. simpl. destruct (decide (o ∈ args s.1)) as [Ho|Ho]; [|now rewrite (H1 o Ho)].
      destruct (decide (o ∈ live)) as [Hol|Hol].
      + apply elem_of_list_lookup in Hol as [k Hk]. destruct (H3 k o Hk) as (y' & A & B & C). rewrite A, B. reflexivity.
      + destruct (H2 o Ho Hol) as (D & y & A & B & _). rewrite D, A. symmetry. eapply Z; eassumption.
  Qed.

  Lemma args_index s k o y : OwnO s -> args s !! k = Some o -> outputs s !! o = Some y -> out_owner y = ORegion /\ out_index y = k.
  Proof. intros HO Hk Hy. apply (o_arg _ HO) in Hk as (y0 & Hy0 & F). assert (y0 = y) by congruence. now subst. Qed.
  Lemma with_out_index_id k y : out_index y = k -> with_out_index k y = y.
  Proof. intros <-. now destruct y. Qed.
  Lemma add_argument_ok a ty (s : region * T) : Inv s.1 -> outputs s.1 !! a = None ->
    Inv (add_argument a ty s).1 /\ args (add_argument a ty s).1 = args s.1 ++ [a].
  Proof.
    intros HInv Ha. pose proof (k_o _ _ (v_core _ HInv)) as HO. split; [|reflexivity]. unfold add_argument. simpl.
    set (y := {| out_owner := ORegion; out_users := []; out_nusers := 0; out_index := length (args s.1); out_type := ty |}).
    apply (Inv_args s.1 (args s.1 ++ [a]) (<[a := y]> (outputs s.1)) HInv).
    - intros k o Hk. apply lookup_app_Some in Hk as [Hk|[Hle Hk]].
      + assert (o <> a). { intros ->. destruct (args_outputs _ a HO) as [z Hz]; [eapply elem_of_list_lookup_2; exact Hk|]. congruence. }
        rewrite lookup_insert_ne by auto. destruct (args_outputs _ o HO) as [z Hz]; [eapply elem_of_list_lookup_2; exact Hk|].
        destruct (args_index _ _ _ _ HO Hk Hz) as [F1 F2]. exists z. split; [exact Hz|]. split; [exact F1|]. split; [exact F2|]. right.
        split; [eapply elem_of_list_lookup_2; exact Hk|]. exists z. split; [exact Hz|]. symmetry. now apply with_out_index_id.
      + destruct (k - length (args s.1)) as [|r] eqn:Er; [|discriminate]. simpl in Hk. assert (o = a) by congruence. subst o.
        exists y. rewrite lookup_insert. split; [reflexivity|]. split; [reflexivity|]. split; [simpl; lia|]. left. auto.
    - intros o Hn _. rewrite lookup_insert_ne; [reflexivity|]. intros ->. apply Hn. apply elem_of_app. right. now left.
    - intros o Hn Ho. exfalso. apply Hn. apply elem_of_app. now left.
  Qed.
  Lemma shift_arguments_ok l : forall k s, NoDup l -> (forall o, o ∈ l -> is_output s o) ->
    exists m, shift_arguments l k s = Some (set_outputs (fun _ => m) s) /\
      (forall o, o ∉ l -> m !! o = outputs s !! o) /\
      (forall j o, l !! j = Some o -> exists y, outputs s !! o = Some y /\ m !! o = Some (with_out_index (S (k + j)) y)).
  Proof.
    induction l as [|a l IH]; intros k s Hnd Hl; simpl.
    - exists (outputs s). split; [destruct s; reflexivity|]. split; [reflexivity|]. intros j o H. discriminate.
    - apply NoDup_cons in Hnd as [Ha Hnd]. destruct (Hl a (elem_of_list_here a l)) as [y Hy]. rewrite Hy. simpl.
      destruct (IH (S k) (set_outputs <[a := with_out_index (S k) y]> s) Hnd) as (m & E & H1 & H2).
      { intros o Ho. unfold is_output. simpl. rewrite lookup_insert_ne; [apply Hl; now right|]. intros ->. contradiction. }
      exists m. rewrite E. split; [reflexivity|]. split.
      + intros o Ho. apply not_elem_of_cons in Ho as [A B]. rewrite (H1 o B). simpl. now rewrite lookup_insert_ne by auto.
      + intros j o Hj. destruct j as [|j]; simpl in Hj.
        * injection Hj as <-. exists y. split; [exact Hy|]. rewrite (H1 a Ha). simpl. now rewrite lookup_insert, Nat.add_0_r.
        * destruct (H2 j o Hj) as (y' & A & B). simpl in A. rewrite lookup_insert_ne in A.
          2:{ intros ->. apply Ha. eapply elem_of_list_lookup_2; exact Hj. }
          exists y'. split; [exact A|]. rewrite B. do 2 f_equal. lia.
  Qed.
  Lemma insert_argument_ok k a ty (s : region * T) : Inv s.1 -> outputs s.1 !! a = None ->
    match insert_argument k a ty s with
    | Ok s' => Inv s'.1 /\ k <= length (args s.1) /\ args s'.1 = take k (args s.1) ++ a :: drop k (args s.1) /\ inputs s'.1 = inputs s.1 /\ s'.2 = s.2
    | Throws s' => s' = s /\ length (args s.1) < k
    | UB => False
    end.
  Proof.
    intros HInv Ha. pose proof (k_o _ _ (v_core _ HInv)) as HO. unfold insert_argument.
    destruct (decide (length (args s.1) < k)) as [Hlt|Hge]; [auto|]. pose proof (args_nodup _ HO) as Hnd.
    destruct (shift_arguments_ok (drop k (args s.1)) k s.1) as (m & E & H1 & H2).
    { rewrite <- (take_drop k (args s.1)) in Hnd. apply NoDup_app in Hnd as (_ & _ & H). exact H. }
    { intros o Ho. apply args_outputs; [exact HO|]. rewrite <- (take_drop k (args s.1)). apply elem_of_app. now right. }
    rewrite E. simpl. set (y := {| out_owner := ORegion; out_users := []; out_nusers := 0; out_index := k; out_type := ty |}).
    split; [|split; [lia|auto]].
    assert (a ∉ args s.1) as Hna. { intros H. destruct (args_outputs _ a HO H). congruence. }
    assert (forall o, o ∈ args s.1 <-> o ∈ take k (args s.1) \/ o ∈ drop k (args s.1)) as Hm.
    { intros o. rewrite <- elem_of_app, take_drop. reflexivity. }
    apply (Inv_args s.1 (take k (args s.1) ++ a :: drop k (args s.1)) (<[a := y]> m) HInv).
    - intros j o Hj. apply lookup_app_Some in Hj as [Hj|[Hle Hj]].
      + pose proof Hj as Hj2. apply lookup_take_Some in Hj2 as [Hj2 Hjk]. assert (o ∈ args s.1) as Hin by (eapply elem_of_list_lookup_2; exact Hj2).
        assert (o <> a) by congruence. rewrite lookup_insert_ne by auto. destruct (args_outputs _ o HO Hin) as [z Hz].
        assert (o ∉ drop k (args s.1)) as Hnd2. { intros Hd. rewrite <- (take_drop k (args s.1)) in Hnd. apply NoDup_app in Hnd as (_ & X & _). eapply X; [eapply elem_of_list_lookup_2; exact Hj|exact Hd]. }
        destruct (args_index _ _ _ _ HO Hj2 Hz) as [F1 F2]. exists z. rewrite (H1 o Hnd2). split; [exact Hz|]. split; [exact F1|]. split; [exact F2|]. right.
        split; [exact Hin|]. exists z. split; [exact Hz|]. symmetry. now apply with_out_index_id.
      + rewrite take_length, Nat.min_l in Hle, Hj by lia. destruct (j - k) as [|r] eqn:Er; simpl in Hj.
        * assert (o = a) by congruence. subst o. exists y. rewrite lookup_insert. split; [reflexivity|]. split; [reflexivity|]. split; [simpl; lia|]. left. auto.
        * destruct (H2 r o Hj) as (z & A & B). assert (o ∈ args s.1) as Hin by (apply Hm; right; eapply elem_of_list_lookup_2; exact Hj).
          assert (o <> a) by congruence. rewrite lookup_insert_ne by auto. rewrite lookup_drop in Hj. destruct (args_index _ _ _ _ HO Hj A) as [F1 F2].
          exists (with_out_index (S (k + r)) z). split; [exact B|]. split; [exact F1|]. split; [simpl; lia|]. right. split; [exact Hin|]. exists z.
          split; [exact A|]. f_equal. lia.
    - intros o Hn Hno. rewrite elem_of_app, elem_of_cons in Hn. rewrite lookup_insert_ne by (intros ->; apply Hn; tauto). apply H1. intros Hd. apply Hn. tauto.
    - intros o Hn Hin. exfalso. apply Hn. rewrite elem_of_app, elem_of_cons. apply Hm in Hin. tauto.
  Qed.
End Ops.
