(** divert_users, removal of nodes, pruning, histories. *)
From stdpp Require Import base list gmap.
From Verif.Region Require Import Model Spec Proofs Proofs2 Proofs3 Proofs4 Proofs5 Proofs6 Proofs7 Proofs8.

Lemma user_is_input s o i : Inv s -> i ∈ users_of s o -> exists x, inputs s !! i = Some x /\ in_origin x = Some o.
Proof.
  intros HI H. unfold users_of in H. destruct (outputs s !! o) as [y|] eqn:Hy; [|inversion H]. exact (e_users _ _ (k_e _ _ (v_core _ HI)) o y i Hy H).
Qed.
Lemma user_origin s i x o : Inv s -> inputs s !! i = Some x -> in_origin x = Some o -> i ∈ users_of s o /\ exists y, outputs s !! o = Some y /\ in_type x = out_type y.
Proof.
  intros HI Hx Ho. destruct (e_in _ _ (k_e _ _ (v_core _ HI)) i x Hx ltac:(discriminate)) as (o' & y & E & Hy & Hin & Ht).
  assert (o' = o) as -> by congruence. unfold users_of. rewrite Hy. eauto.
Qed.
Lemma users_nodup s o : Inv s -> NoDup (users_of s o).
Proof.
  intros HI. unfold users_of. destruct (outputs s !! o) as [y|] eqn:Hy; [|constructor]. exact (proj1 (e_nodup _ _ (k_e _ _ (v_core _ HI)) o y Hy)).
Qed.

Section Ops.
  Context {T : Type} (obs : event -> region -> T -> T).

  Definition moved (l : list ptr) (o : ptr) (s s' : region) : Prop :=
    forall j, inputs s' !! j = if decide (j ∈ l) then with_origin (Some o) <$> inputs s !! j else inputs s !! j.
  Lemma divert_users_loop_ok fuel o o' y' : forall (s : region * T) y, Inv s.1 -> o <> o' -> outputs s.1 !! o = Some y -> outputs s.1 !! o' = Some y' -> out_type y = out_type y' -> length (out_users y) = fuel ->
    exists s', divert_users_loop obs fuel o o' s = Ok s' /\ Inv s'.1 /\ same_shape s.1 s'.1 /\
      users_of s'.1 o = [] /\ users_of s'.1 o' = users_of s.1 o' ++ users_of s.1 o /\ (forall o2, o2 <> o -> o2 <> o' -> users_of s'.1 o2 = users_of s.1 o2) /\
      moved (users_of s.1 o) o' s.1 s'.1.
  Proof.
    revert y'. induction fuel as [|fuel IH]; intros y' s y HI Hne Hy Hy' Ht Hlen.
    - destruct (out_users y) as [|i l] eqn:Hu; [|discriminate]. simpl. rewrite Hy, Hu. exists s. split; [reflexivity|]. split; [assumption|]. split; [apply same_shape_refl|].
      assert (users_of s.1 o = []) as E by (unfold users_of; now rewrite Hy, Hu). rewrite E, app_nil_r. split; [reflexivity|]. split; [reflexivity|]. split; [reflexivity|].
      intros j. rewrite decide_False by (intros K; inversion K). reflexivity.
    - destruct (out_users y) as [|i l] eqn:Hu; [discriminate|]. cbn [divert_users_loop]. rewrite Hy, Hu. simpl in Hlen. injection Hlen as Hlen.
      assert (users_of s.1 o = i :: l) as E by (unfold users_of; now rewrite Hy, Hu).
      destruct (user_is_input s.1 o i HI) as (x & Hx & Hxo). { rewrite E. now left. }
      destruct (user_origin _ _ _ _ HI Hx Hxo) as (_ & y2 & Hy2 & Hxt). assert (y2 = y) as -> by congruence.
      pose proof (divert_to_ok obs i o' s HI (ex_intro _ x Hx)) as A. destruct (divert_to obs i o' s) as [s1|s1|]; [| |contradiction].
      2:{ exfalso. destruct A as [_ A]. specialize (A x Hx). unfold check_types in A. rewrite Hy' in A. rewrite bool_decide_eq_false in A. congruence. }
      destruct A as (HI1 & HS1 & x1 & o1 & Hx1 & Ho1 & _ & Hin1 & D). assert (x1 = x) as -> by congruence. assert (o1 = o) as -> by congruence.
      destruct D as [[D _]|(_ & HU1 & _)]; [contradiction|].
      pose proof (users_nodup s.1 o HI) as Hnd. rewrite E in Hnd. apply NoDup_cons in Hnd as [Hil Hnd].
      assert (filter (fun j => j <> i) (i :: l) = l) as Ef.
      { rewrite filter_cons_False by auto. clear -Hil. induction l as [|a l IH]; [reflexivity|]. rewrite not_elem_of_cons in Hil. rewrite filter_cons_True by (apply not_eq_sym; tauto). f_equal. apply IH. tauto. }
      assert (users_of s1.1 o = l) as E1. { rewrite HU1, decide_False, decide_True by auto. now rewrite E. }
      destruct (ss_out_l _ _ _ _ HS1 Hy) as (y1 & Hy1 & F1). destruct (ss_out_l _ _ _ _ HS1 Hy') as (y1' & Hy1' & F1'). apply shape_out_inv in F1 as (_ & _ & F1), F1' as (_ & _ & F1').
      destruct (IH y1' s1 y1 HI1 Hne Hy1 Hy1') as (s' & E' & HI' & HS' & U1 & U2 & U3 & M).
      { congruence. } { rewrite <- Hlen, <- E1. unfold users_of. now rewrite Hy1. }
      exists s'. split; [assumption|]. split; [assumption|]. split; [exact (same_shape_trans _ _ _ HS1 HS')|]. split; [assumption|]. split; [|split].
      + rewrite U2, E1, E, HU1, decide_True by reflexivity. now rewrite <- app_assoc.
      + intros o2 N1 N2. rewrite U3 by assumption. rewrite HU1, !decide_False by assumption. reflexivity.
      + intros j. rewrite M, E1, E, Hin1. destruct (decide (j = i)) as [->|Dj].
        * rewrite (decide_False (P := i ∈ l)) by assumption. rewrite (decide_True (P := i ∈ i :: l)) by now left. rewrite lookup_insert, Hx. reflexivity.
        * rewrite lookup_insert_ne by auto. destruct (decide (j ∈ l)) as [Dl|Dl]; [rewrite decide_True by (now right); reflexivity|].
          rewrite decide_False; [reflexivity|]. intros K. apply elem_of_cons in K as [K|K]; contradiction.
  Qed.
  Lemma divert_users_ok o o' (s : region * T) : Inv s.1 -> is_output s.1 o ->
    match divert_users obs o o' s with
    | Ok s' => Inv s'.1 /\ same_shape s.1 s'.1 /\
       (o = o' /\ s' = s \/ users_of s.1 o = [] /\ s' = s \/
        o <> o' /\ is_output s.1 o' /\ users_of s'.1 o = [] /\ users_of s'.1 o' = users_of s.1 o' ++ users_of s.1 o /\ (forall o2, o2 <> o -> o2 <> o' -> users_of s'.1 o2 = users_of s.1 o2) /\
        moved (users_of s.1 o) o' s.1 s'.1)
    | Throws s' => s' = s /\ users_of s.1 o <> [] /\ forall y, outputs s.1 !! o = Some y -> check_types o' (out_type y) s.1 = false
    | UB => False
    end.
  Proof.
    intros HI [y Hy]. unfold divert_users. destruct (decide (o = o')) as [->|Hne].
    { split; [assumption|]. split; [apply same_shape_refl|]. auto. }
    rewrite Hy. destruct (check_types o' (out_type y) s.1) eqn:Hc.
    - apply check_types_true in Hc as (y' & Hy' & Ht). destruct (divert_users_loop_ok _ o o' y' s y HI Hne Hy Hy' Ht eq_refl) as (s' & E & HI' & HS' & U1 & U2 & U3 & M).
      rewrite E. split; [assumption|]. split; [assumption|]. right. right. split; [assumption|]. split; [eexists; exact Hy'|auto].
    - destruct (out_users y) as [|i l] eqn:Hu.
      + simpl. rewrite Hy, Hu. split; [assumption|]. split; [apply same_shape_refl|]. right. left. unfold users_of. now rewrite Hy.
      + cbn [length divert_users_loop]. rewrite Hy, Hu.
        assert (users_of s.1 o = i :: l) as E by (unfold users_of; now rewrite Hy, Hu).
        destruct (user_is_input s.1 o i HI) as (x & Hx & Hxo). { rewrite E. now left. }
        destruct (user_origin _ _ _ _ HI Hx Hxo) as (_ & y2 & Hy2 & Hxt). assert (y2 = y) as -> by congruence.
        unfold divert_to. rewrite Hx, Hxo. rewrite decide_False by assumption. rewrite Hxt, Hc. split; [reflexivity|]. split; [rewrite E; discriminate|]. congruence.
  Qed.

  Lemma remove_node_ok p (s : region * T) nd : Inv s.1 -> nodes s.1 !! p = Some nd -> nd_succ nd = 0 ->
    exists s', remove_node obs p s = Some s' /\ Inv s'.1 /\ nodes s'.1 !! p = None /\
      (forall n, n <> p -> shape_node <$> nodes s'.1 !! n = shape_node <$> nodes s.1 !! n) /\
      (forall o, shape_out <$> outputs s'.1 !! o = if decide (o ∈ nd_outputs nd) then None else shape_out <$> outputs s.1 !! o) /\
      inputs s'.1 = foldr delete (inputs s.1) (nd_inputs nd) /\
      (forall o j, j ∈ users_of s'.1 o <-> j ∈ users_of s.1 o /\ j ∉ nd_inputs nd) /\
      args s'.1 = args s.1 /\ results s'.1 = results s.1 /\ next_id s'.1 = next_id s.1 /\
      s'.2 = obs (ENodeDestroy p) s.1 s.2.
  Proof.
    intros HI Hp Hz. destruct (node_dtor_ok p nd s.1 HI Hp Hz) as (r & E & A). unfold remove_node, lift, notify. simpl. rewrite E. simpl.
    eexists. split; [reflexivity|]. simpl. decompose [and] A. auto 12.
  Qed.
End Ops.

(** ** pruning *)
Lemma useless_ind' s (P : ptr -> Prop) :
  (forall n nd, nodes s !! n = Some nd ->
     (forall o i, o ∈ nd_outputs nd -> i ∈ users_of s o -> exists x m, inputs s !! i = Some x /\ in_owner x = ONode m /\ useless s m) ->
     (forall o i, o ∈ nd_outputs nd -> i ∈ users_of s o -> exists x m, inputs s !! i = Some x /\ in_owner x = ONode m /\ P m) -> P n) ->
  forall n, useless s n -> P n.
Proof.
  intros H. fix IH 2. intros n [n' nd Hn Hall]. apply (H n' nd Hn Hall). intros o i Ho Hi.
  destruct (Hall o i Ho Hi) as (x & m & Hx & Hm & Hu). exists x, m. split; [exact Hx|]. split; [exact Hm|]. exact (IH m Hu).
Qed.
Lemma dead_iff s p nd : Inv s -> nodes s !! p = Some nd -> (nd_succ nd = 0 <-> forall o, o ∈ nd_outputs nd -> users_of s o = []).
Proof.
  intros HI Hp. split.
  - intros Hz o Ho. unfold users_of. destruct (outputs s !! o) as [y|] eqn:Hy; [|reflexivity]. eapply dead_no_users; [apply HI|eassumption..].
  - intros H. rewrite (b_succ _ (k_b _ _ (v_core _ HI)) p nd Hp). unfold total. assert (forall o, o ∈ nd_outputs nd -> nusers s o = 0) as K.
    { intros o Ho. unfold nusers. specialize (H o Ho). unfold users_of in H. destruct (outputs s !! o) as [y|] eqn:Hy; [|reflexivity].
      destruct (e_nodup _ _ (k_e _ _ (v_core _ HI)) o y Hy) as [_ ->]. now rewrite H. }
    clear -K. induction (nd_outputs nd) as [|o l IH]; [reflexivity|]. cbn [sum_list_with]. rewrite (K o) by now left. rewrite IH; [reflexivity|]. intros o' Ho'. apply K. now right.
Qed.
Lemma useless_step s s' p nd : Inv s -> Inv s' -> nodes s !! p = Some nd -> nd_succ nd = 0 ->
  nodes s' !! p = None -> (forall n, n <> p -> shape_node <$> nodes s' !! n = shape_node <$> nodes s !! n) ->
  inputs s' = foldr delete (inputs s) (nd_inputs nd) ->
  (forall o j, j ∈ users_of s' o <-> j ∈ users_of s o /\ j ∉ nd_inputs nd) ->
  forall n, n <> p -> (useless s' n <-> useless s n).
Proof.
  intros HI HI' Hp Hz Hp' Hn Hin Hu n Hne. split; intros H.
  - revert Hne. induction H as [n nd' Hn' Hall IH] using useless_ind'. intros Hne. pose proof (Hn n) as K. rewrite Hn' in K. destruct (nodes s !! n) as [nd0|] eqn:Hn0; [|discriminate K; assumption].
    specialize (K Hne). simpl in K. assert (shape_node nd' = shape_node nd0) as K' by congruence. apply shape_node_inv in K' as (_ & _ & K').
    apply (useless_intro s n nd0 Hn0). intros o i Ho Hi. destruct (decide (i ∈ nd_inputs nd)) as [Di|Di].
    + pose proof Di as Di'. apply elem_of_list_lookup in Di' as [k Hk]. destruct (proj1 (i_node _ (v_i _ HI) p k i)) as (x & Hx & F & _); [eauto|]. exists x, p. split; [assumption|]. split; [assumption|].
      apply (useless_intro s p nd Hp). intros o2 i2 Ho2 Hi2. rewrite (proj1 (dead_iff s p nd HI Hp) Hz o2 Ho2) in Hi2. inversion Hi2.
    + rewrite <- K' in Ho. destruct (Hall o i Ho (proj2 (Hu o i) (conj Hi Di))) as (x & m & Hx & Hm & _).
      exists x, m. rewrite Hin, lookup_foldr_delete, decide_False in Hx by assumption. split; [assumption|]. split; [assumption|].
      destruct (IH o i Ho (proj2 (Hu o i) (conj Hi Di))) as (x' & m' & Hx' & Hm' & IH').
      rewrite Hin, lookup_foldr_delete, decide_False in Hx' by assumption. assert (m' = m) as -> by congruence. apply IH'.
      intros ->. assert (inputs s' !! i = Some x) as Hx2 by (rewrite Hin, lookup_foldr_delete, decide_False by assumption; assumption).
      destruct (proj2 (i_node _ (v_i _ HI') p (in_index x) i)) as (nd2 & Hnd2 & _); [eauto|]. congruence.
  - revert Hne. induction H as [n nd0 Hn0 Hall IH] using useless_ind'. intros Hne. pose proof (Hn n Hne) as K. rewrite Hn0 in K. destruct (nodes s' !! n) as [nd'|] eqn:Hn'; [|discriminate].
    simpl in K. assert (shape_node nd' = shape_node nd0) as K' by congruence. apply shape_node_inv in K' as (_ & _ & K').
    apply (useless_intro s' n nd' Hn'). intros o i Ho Hi. rewrite K' in Ho. apply Hu in Hi as [Hi Di]. destruct (IH o i Ho Hi) as (x & m & Hx & Hm & IH'). exists x, m.
    rewrite Hin, lookup_foldr_delete, decide_False by assumption. split; [assumption|]. split; [assumption|]. apply IH'. intros ->.
    apply Di. destruct (proj2 (i_node _ (v_i _ HI) p (in_index x) i)) as (nd2 & Hnd2 & Hk); [eauto|]. assert (nd2 = nd) as -> by congruence. eapply elem_of_list_lookup_2; eassumption.
Qed.

Section Ops2.
  Context {T : Type} (obs : event -> region -> T -> T).

  Lemma prune_loop_ok fuel : forall s : region * T, Inv s.1 -> size (nodes s.1) <= fuel ->
    exists s', prune_loop obs fuel s = Some s' /\ Inv s'.1 /\ il_elems (bottom s'.1) = [] /\
      args s'.1 = args s.1 /\ results s'.1 = results s.1 /\ next_id s'.1 = next_id s.1 /\
      (forall n, ~ useless s.1 n -> shape_node <$> nodes s'.1 !! n = shape_node <$> nodes s.1 !! n) /\
      (forall n, useless s.1 n -> nodes s'.1 !! n = None) /\
      (forall i, is_input s'.1 i -> inputs s'.1 !! i = inputs s.1 !! i) /\
      (forall o, is_output s'.1 o -> shape_out <$> outputs s'.1 !! o = shape_out <$> outputs s.1 !! o) /\
      (forall a, a ∈ args s.1 -> is_output s'.1 a).
  Proof.
    induction fuel as [|fuel IH]; intros s HI Hsz; cbn [prune_loop].
    - destruct (il_elems (bottom s.1)) as [|p l] eqn:Eb.
      2:{ exfalso. assert (p ∈ il_elems (bottom s.1)) as H by (rewrite Eb; now left). apply (b_iff _ (k_b _ _ (v_core _ HI))) in H as (nd & Hp & _).
          assert (size (nodes s.1) = 0) as Z by lia. apply map_size_empty_inv in Z. rewrite Z, lookup_empty in Hp. discriminate. }
      exists s. split; [reflexivity|]. split; [assumption|]. split; [assumption|]. do 3 (split; [reflexivity|]). split; [reflexivity|]. split; [|split; [reflexivity|split; [reflexivity|]]].
      + intros n Hun. assert (size (nodes s.1) = 0) as Z by lia. apply map_size_empty_inv in Z. rewrite Z. apply lookup_empty.
      + intros a Ha. apply args_outputs; [apply HI|assumption].
    - destruct (il_elems (bottom s.1)) as [|p l] eqn:Eb.
      + exists s. split; [reflexivity|]. split; [assumption|]. split; [assumption|]. do 3 (split; [reflexivity|]). split; [reflexivity|]. split; [|split; [reflexivity|split; [reflexivity|]]].
        2:{ intros a Ha. apply args_outputs; [apply HI|assumption]. }
        assert (forall n, useless s.1 n -> False) as K.
        { intros n H. induction H as [n nd Hn Hall IHu] using useless_ind'. 
          destruct (decide (nd_succ nd = 0)) as [Hz|Hz].
          - assert (n ∈ il_elems (bottom s.1)) as H by (apply (b_iff _ (k_b _ _ (v_core _ HI))); eauto). rewrite Eb in H. inversion H.
          - assert (exists o i, o ∈ nd_outputs nd /\ i ∈ users_of s.1 o) as (o & i & Ho & Hi).
            { rewrite (b_succ _ (k_b _ _ (v_core _ HI)) n nd Hn) in Hz. unfold total in Hz. clear -Hz HI. induction (nd_outputs nd) as [|o l IH]; [simpl in Hz; lia|]. cbn [sum_list_with] in Hz.
              destruct (decide (nusers s.1 o = 0)) as [Z|Z].
              - destruct IH as (o' & i & H1 & H2); [lia|]. exists o', i. split; [now right|assumption].
              - unfold nusers in Z. unfold users_of. destruct (outputs s.1 !! o) as [y|] eqn:Hy; [|lia]. destruct (e_nodup _ _ (k_e _ _ (v_core _ HI)) o y Hy) as [_ L].
                destruct (out_users y) as [|i l'] eqn:Hu; [simpl in L; lia|]. exists o, i. rewrite Hy, Hu. split; now left. }
            destruct (IHu o i Ho Hi) as (_ & _ & _ & _ & []). }
        intros n Hun. destruct (K n Hun).
      + assert (p ∈ il_elems (bottom s.1)) as H by (rewrite Eb; now left). apply (b_iff _ (k_b _ _ (v_core _ HI))) in H as (nd & Hp & Hz).
        destruct (remove_node_ok obs p s nd HI Hp Hz) as (s1 & E & HI1 & Hp1 & Hn1 & Ho1 & Hin1 & Hu1 & Ha1 & Hr1 & Hid1 & _).
        rewrite E. cbn [mbind option_bind].
        assert (size (nodes s1.1) <= fuel) as Hsz1.
        { assert (dom (nodes s1.1) ⊆ dom (delete p (nodes s.1))) as Hd.
          { intros n Hn. apply elem_of_dom in Hn as [nd' Hnd']. apply elem_of_dom. destruct (decide (n = p)) as [->|D]; [congruence|]. rewrite lookup_delete_ne by auto.
            pose proof (Hn1 n D) as K. rewrite Hnd' in K. destruct (nodes s.1 !! n); [eauto|discriminate]. }
          apply subseteq_size in Hd. rewrite !size_dom in Hd.
          assert (size (delete p (nodes s.1)) = pred (size (nodes s.1))) as Hsd by (apply map_size_delete_Some; eauto). lia. }
        destruct (IH s1 HI1 Hsz1) as (s' & E' & HI' & Eb' & Ha' & Hr' & Hid' & N1 & N2 & I1 & O1 & A1).
        pose proof (useless_step _ _ p nd HI HI1 Hp Hz Hp1 Hn1 Hin1 Hu1) as US.
        assert (useless s.1 p) as Hup. { apply (useless_intro _ p nd Hp). intros o2 i2 Ho2 Hi2. rewrite (proj1 (dead_iff s.1 p nd HI Hp) Hz o2 Ho2) in Hi2. inversion Hi2. }
        assert (~ useless s1.1 p) as Hup1. { intros Hu. inversion Hu. congruence. }
        exists s'. split; [assumption|]. split; [assumption|]. split; [assumption|]. do 3 (split; [congruence|]). split; [|split; [|split; [|split]]].
        * intros n Hn. assert (n <> p) as D by (intros ->; contradiction). rewrite N1 by (rewrite US; assumption). apply Hn1. assumption.
        * intros n Hn. destruct (decide (n = p)) as [->|D].
          -- pose proof (N1 p Hup1) as K. rewrite Hp1 in K. destruct (nodes s'.1 !! p); [discriminate|reflexivity].
          -- apply N2. now apply US.
        * intros i Hi. pose proof Hi as [x Hx]. rewrite I1 by assumption. rewrite Hin1, lookup_foldr_delete. case_decide as Di; [|reflexivity].
          rewrite I1 in Hx by assumption. rewrite Hin1, lookup_foldr_delete, decide_True in Hx by assumption. discriminate.
        * intros o Ho. pose proof Ho as [y Hy]. rewrite O1 by assumption. rewrite Ho1. case_decide as Do; [|reflexivity]. pose proof (O1 o Ho) as K. rewrite Hy, Ho1, decide_True in K by assumption. discriminate.
        * intros a Ha. apply A1. now rewrite Ha1.
  Qed.

  Lemma prune_ok (s : region * T) : Inv s.1 -> exists s', prune obs s = Some s' /\ Inv s'.1 /\ il_elems (bottom s'.1) = [] /\
      args s'.1 = args s.1 /\ results s'.1 = results s.1 /\ next_id s'.1 = next_id s.1 /\
      (forall n, ~ useless s.1 n -> shape_node <$> nodes s'.1 !! n = shape_node <$> nodes s.1 !! n) /\
      (forall n, useless s.1 n -> nodes s'.1 !! n = None) /\
      (forall i, is_input s'.1 i -> inputs s'.1 !! i = inputs s.1 !! i) /\
      (forall o, is_output s'.1 o -> shape_out <$> outputs s'.1 !! o = shape_out <$> outputs s.1 !! o) /\
      (forall a, a ∈ args s.1 -> is_output s'.1 a).
  Proof. intros HI. now apply prune_loop_ok. Qed.

  (** ** every command *)
  Lemma exec_ok c (s : region * T) : Inv s.1 -> legal c s.1 ->
    match exec obs c s with Ok s' => Inv s'.1 | Throws s' => Inv s'.1 /\ same_graph s.1 s'.1 /\ s'.2 = s.2 | UB => False end.
  Proof.
    intros HI HL. assert (same_graph s.1 s.1) as Hsg by (constructor; reflexivity).
    destruct c as [p tys ops ins outs|p n|p i o ty|p ix|p o ty|p ix|a ty|k a ty|ix| |i o ty|ix|i o|o o'|p| ]; cbn [exec].
    - pose proof (create_simple_ok obs p tys ops ins outs s HI HL) as H. destruct (create_simple _ _ _ _ _ _ _); tauto.
    - pose proof (create_structural_ok obs p n s HI HL) as H. destruct (create_structural _ _ _ _); tauto.
    - destruct HL as [[nd Hp] Hi]. pose proof (add_input_ok obs p i o ty true s nd HI Hp Hi) as H. destruct (add_input _ _ _ _ _ _ _); [tauto| |tauto].
      destruct H as [-> _]. auto.
    - destruct HL as (nd & Hp & Hne). destruct (remove_inputs_ok obs p ix s nd HI Hp Hne) as (s' & live & E & H & _). rewrite E. exact H.
    - destruct HL as [[nd Hp] Ho]. destruct (add_output_ok p o ty s nd HI Hp Ho) as (s' & E & H & _). rewrite E. exact H.
    - destruct HL as [nd Hp]. destruct (remove_outputs_ok p ix s nd HI Hp) as (s' & live & E & H & _). rewrite E. exact H.
    - apply (add_argument_ok a ty s HI HL).
    - pose proof (insert_argument_ok k a ty s HI HL) as H. destruct (insert_argument _ _ _ _); [tauto| |tauto]. destruct H as [-> _]. auto.
    - unfold remove_arguments. destruct (decide (ix = [])); [exact HI|]. destruct (remove_args_ok false ix s HI) as (s' & live & E & H & _). rewrite E. exact H.
    - unfold prune_arguments. destruct (remove_args_ok true [] s HI) as (s' & live & E & H & _). rewrite E. exact H.
    - pose proof (add_result_ok obs i o ty s HI HL) as H. destruct (add_result _ _ _ _ _); [tauto| |tauto]. destruct H as [-> _]. auto.
    - destruct (remove_results_ok obs ix s HI) as (s' & live & E & H & _). rewrite E. exact H.
    - pose proof (divert_to_ok obs i o s HI HL) as H. destruct (divert_to _ _ _ _); [tauto| |tauto]. destruct H as [-> _]. auto.
    - pose proof (divert_users_ok obs o o' s HI HL) as H. destruct (divert_users _ _ _ _); [tauto| |tauto]. destruct H as [-> _]. auto.
    - destruct HL as (nd & Hp & Hz). destruct (remove_node_ok obs p s nd HI Hp Hz) as (s' & E & H & _). rewrite E. exact H.
    - destruct (prune_ok s HI) as (s' & E & H & _). rewrite E. exact H.
  Qed.

  Lemma empty_Inv : Inv empty_region.
  Proof.
    assert (il_ok il_empty) as Hil by (split; [constructor|reflexivity]).
    constructor; [constructor; constructor|constructor|split|split|split]; simpl; try assumption; try (intros; discriminate);
      try (intros n; split; [intros K; inversion K|intros (nd & Hn & _); discriminate]);
      try (intros n k o; split; intros (nd & Hn & _); discriminate);
      try (intros k; split; [intros K; inversion K|intros (nd & Hn); discriminate]); try (intros k o; split; [intros K; discriminate|intros (nd & Hn & _); discriminate]). all: destruct H as [H _]; discriminate.
  Qed.
  Lemma history_Inv s s' : Inv s.1 -> history obs s s' -> Inv s'.1.
  Proof.
    intros HI H. induction H as [|s1 s2 s3 c H IH HL HE]; [assumption|]. pose proof (exec_ok c s2 (IH HI) HL) as K. destruct HE as [E|E]; rewrite E in K; tauto.
  Qed.
End Ops2.

Lemma total_concat s l : Inv s -> total s l = length (concat (map (users_of s) l)).
Proof.
  intros HI. unfold total. induction l as [|o l IH]; [reflexivity|]. cbn [sum_list_with map concat]. rewrite app_length, IH. f_equal.
  unfold nusers, users_of. destruct (outputs s !! o) as [y|] eqn:Hy; [|reflexivity]. exact (proj2 (e_nodup _ _ (k_e _ _ (v_core _ HI)) o y Hy)).
Qed.
Lemma Inv_consistent s : Inv s -> consistent s.
Proof.
  intros HInv. pose proof HInv as [[HE HO HB] HI HT HA HD]. constructor.
  - intros i x Hx. exact (e_in _ _ HE i x Hx ltac:(discriminate)).
  - intros o y Hy. destruct (e_nodup _ _ HE o y Hy) as [A B]. split; [assumption|]. split; [assumption|]. intros i. exact (e_users _ _ HE o y i Hy).
  - apply HI.
  - apply HI.
  - apply HO.
  - apply HO.
  - intros n nd Hn. rewrite (b_succ _ HB n nd Hn). now apply total_concat.
  - destruct HA as [[A B] C]. auto.
  - destruct HT as [[A B] C]. auto.
  - destruct (b_ok _ HB) as [A B]. split; [assumption|]. split; [assumption|]. intros n. rewrite (b_iff _ HB). split; intros (nd & Hn & F); exists nd; (split; [assumption|]).
    + intros o y Ho Hy. pose proof (proj1 (dead_iff s n nd HInv Hn) F o Ho) as K. unfold users_of in K. now rewrite Hy in K.
    + apply (dead_iff s n nd HInv Hn). intros o Ho. unfold users_of. destruct (outputs s !! o) as [y|] eqn:Hy; [|reflexivity]. now apply (F o y).
  - exact HD.
Qed.
