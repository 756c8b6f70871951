(** BottomUpTraverser: every notification and every command that does not create nodes *)
From stdpp Require Import base list gmap.
From Verif.Region Require Import Model Spec Proofs Proofs2 Proofs3 Proofs4 Proofs5 Proofs6 Proofs7 Proofs8 Proofs9.
From Verif.Traverser Require Import Model Spec Proofs Proofs2 Proofs3 Proofs4 Proofs5 Proofs6 Proofs7.

Notation BUI r t := (TI true (E_bu r) (is_node r) t).

Lemma bu_lookup r i f w : E_td r !! i = Some (f, w) -> E_bu r !! i = Some (w, f).
Proof. apply E_bu_some. Qed.
Lemma bu_input_create r r' t i f w (N : ptr -> Prop) : Core None r' -> TI true (E_bu r) N t -> E_td r !! i = None -> E_td r' = <[i := (f, w)]> (E_td r) -> (forall n, f = Some n -> N n) ->
  TI true (E_bu r') N (bu_obs (EInputCreate i) r' t) /\ same_behind t (bu_obs (EInputCreate i) r' t).
Proof.
  intros HC HT Hi HE Hf. assert (E_td r' !! i = Some (f, w)) as Hi' by (rewrite HE; apply lookup_insert). apply td_fst in Hi' as [Hf' Hw'].
  assert (E_bu r !! i = None) as Hib by (unfold E_bu; rewrite lookup_fmap, Hi; reflexivity). pose proof (E_bu_insert r r' i f w HE) as HEb.
  cbn [bu_obs]. rewrite Hf'. destruct f as [n|]; cbn [with_node].
  - rewrite bu_activated_iff, Hw', if_bool_decide. rewrite <- (deg_bu r' n HC). split.
    + pose proof (TI_add_edge true N (E_bu r) t i w (Some n) HT Hib Hf) as K. cbv zeta in K. rewrite <- HEb in K. exact K.
    + destruct (decide (active t w)); [apply sb_inc, HT|apply sb_deact, HT].
  - split; [|apply sb_refl]. pose proof (TI_add_edge true N (E_bu r) t i w None HT Hib Hf) as K. cbv zeta in K. rewrite <- HEb in K. exact K.
Qed.
Lemma sb_with_node (o : option ptr) (g : ptr -> tracker -> tracker) t : fr_ok t -> (forall n t, fr_ok t -> fr_ok (g n t) /\ same_behind t (g n t)) -> fr_ok (with_node o g t) /\ same_behind t (with_node o g t).
Proof. intros F H. destruct o; cbn [with_node]; [now apply H|split; [assumption|apply sb_refl]]. Qed.
Lemma bu_input_change r r' t i o o' f f' w (N : ptr -> Prop) : Core None r' -> TI true (E_bu r) N t ->
  E_td r !! i = Some (f, w) -> E_td r' = <[i := (f', w)]> (E_td r) -> output_node r' o = f -> output_node r' o' = f' -> (forall n, f = Some n -> N n) -> (forall n, f' = Some n -> N n) ->
  TI true (E_bu r') N (bu_obs (EInputChange i o o') r' t) /\ same_behind t (bu_obs (EInputChange i o o') r' t).
Proof.
  intros HC HT Hi HE Hf Hf' HN HN'. assert (E_td r' !! i = Some (f', w)) as Hi' by (rewrite HE; apply lookup_insert). apply td_fst in Hi' as [_ Hw'].
  pose proof (E_bu_insert r r' i f' w HE) as HEb. apply bu_lookup in Hi. cbn [bu_obs]. rewrite Hf, Hf', bu_activated_iff, Hw'. split.
  - pose proof (TI_change_to true N (E_bu r) t i w f f' HT Hi HN HN') as K. cbv zeta in K. rewrite <- HEb in K.
    assert (with_node f (fun n t0 => if bool_decide (active t w) then dec_activation n (nsuccessors r' n) t0 else check_activation n (nsuccessors r' n) t0) t =
      match f with Some n => if decide (active t w) then dec_activation n (deg (E_bu r') n) t else check_activation n (deg (E_bu r') n) t | None => t end) as ->.
    { destruct f as [n|]; cbn [with_node]; [|reflexivity]. now rewrite if_bool_decide, deg_bu by assumption. }
    set (t1 := match f with Some n => _ | None => t end) in *. destruct f' as [n|]; cbn [with_node]; [|exact K]. rewrite if_bool_decide, <- deg_bu by assumption. exact K.
  - pose proof (ti_fr _ _ _ _ HT) as F.
    destruct (sb_with_node f (fun n t0 => if bool_decide (active t w) then dec_activation n (nsuccessors r' n) t0 else check_activation n (nsuccessors r' n) t0) t F) as [F1 S1].
    { intros n t0 F0. destruct (bool_decide _); [split; [apply dec_spec, F0|apply sb_dec, F0]|split; [apply check_activation_spec, F0|apply sb_act, F0]]. }
    eapply sb_trans; [exact S1|]. apply sb_with_node; [assumption|]. intros n t0 F0. destruct (bool_decide _); [split; [apply inc_spec, F0|apply sb_inc, F0]|split; [apply check_deactivation_spec, F0|apply sb_deact, F0]].
Qed.
Lemma bu_input_destroy r t i f w (N : ptr -> Prop) : Core None r -> TI true (E_bu r) N t -> E_td r !! i = Some (f, w) -> (forall n, f = Some n -> N n) ->
  TI true (delete i (E_bu r)) N (bu_obs (EInputDestroy i) r t) /\ same_behind t (bu_obs (EInputDestroy i) r t).
Proof.
  intros HC HT Hi Hf. destruct (td_fst _ _ _ _ Hi) as [Hf' Hw']. apply bu_lookup in Hi. cbn [bu_obs]. rewrite Hf'. destruct f as [n|]; cbn [with_node].
  - rewrite bu_activated_iff, Hw', if_bool_decide. split.
    + apply (TI_delete_edge true N (E_bu r) t i w (Some n) 0 (nsuccessors r n - 1) HT Hi Hf). intros m E. injection E as <-. rewrite deg_bu by assumption. lia.
    + destruct (decide (active t w)); [apply sb_dec, HT|apply sb_act, HT].
  - split; [|apply sb_refl]. apply (TI_delete_edge true N (E_bu r) t i w None 0 0 HT Hi Hf). discriminate.
Qed.
Lemma bu_visit r t n (HI : Inv r) : BUI r t -> st t n = Frontier -> BUI r (bu_mark r n t) /\ forall m, st (bu_mark r n t) m = Behind <-> m = n \/ st t m = Behind.
Proof.
  intros HT Hn. assert (bu_mark r n t = foldl (fun t i => with_node (E_bu r !! i ≫= snd) (fun n => inc_activation n (deg (E_bu r) n)) t) (mark_if_frontier n t) (node_inputs r n)) as ->.
  { unfold bu_mark. apply foldl_ext'. intros t0 i. unfold bu_inc_pred. rewrite bu_snd. destruct (origin_node r i); [|reflexivity]. cbn [with_node]. now rewrite deg_bu by apply HI. }
  apply (TI_visit true (is_node r) (E_bu r) t n (node_inputs r n) HT Hn).
  - apply node_inputs_nodup, HI.
  - intros i. rewrite in_node_inputs by apply HI. split.
    + intros H. unfold input_node in H. destruct (inputs r !! i) as [x|] eqn:Hx; [|discriminate]. simpl in H. exists (in_origin x ≫= output_node r). apply E_bu_some, E_td_some. eauto.
    + intros [w H]. apply E_bu_some in H. now apply td_fst in H as [_ H].
  - intros i _ m H. rewrite bu_snd in H. unfold origin_node in H. destruct (inputs r !! i) as [x|]; [|discriminate]. simpl in H. destruct (in_origin x) as [o|]; [|discriminate]. simpl in H.
    apply output_node_some in H as (nd & H & _); [now exists nd|apply HI].
Qed.
Lemma bu_init_ok r : Inv r -> BUI r (bu_init r) /\ forall m, st (bu_init r) m <> Behind.
Proof.
  intros HI. pose proof (v_core _ HI) as HC. pose proof HC as [HE HO HB].
  assert (bu_init r = foldl (fun t i => with_node (E_bu r !! i ≫= snd) (fun n => inc_activation n (deg (E_bu r) n)) t)
     (foldl (fun t n => check_activation n (deg (E_bu r) n) t) no_tracker (il_elems (bottom r))) (results r)) as ->.
  { unfold bu_init. rewrite (foldl_ext' (fun t n => check_activation n (nsuccessors r n) t) (fun t n => check_activation n (deg (E_bu r) n) t)) by (intros t n; now rewrite deg_bu by apply HI).
    apply foldl_ext'. intros t0 i. unfold bu_inc_pred. rewrite bu_snd. destruct (origin_node r i); [|reflexivity]. cbn [with_node]. now rewrite deg_bu by apply HI. }
  destruct (b_ok _ HB) as [B1 B2]. apply (TI_init true (is_node r) (E_bu r) (il_elems (bottom r)) (results r)).
  - assumption.
  - intros n. rewrite (b_iff _ HB), deg_bu by apply HI. unfold nsuccessors, is_node. split.
    + intros (nd & Hn & E). rewrite Hn, E. split; [now exists nd|reflexivity].
    + intros [[nd Hn] E]. rewrite Hn in E. eauto.
  - apply NoDup_alt. intros k k' i H1 H2. apply (i_res _ (v_i _ HI)) in H1 as (x & Hx & _ & E1). apply (i_res _ (v_i _ HI)) in H2 as (y & Hy & _ & E2). congruence.
  - intros i. split.
    + intros H. apply elem_of_list_lookup in H as [k H]. apply (i_res _ (v_i _ HI)) in H as (x & Hx & E & _). exists (in_origin x ≫= output_node r). apply E_bu_some, E_td_some. exists x. now rewrite E.
    + intros [w H]. apply E_bu_some, E_td_some in H as (x & Hx & _ & E). destruct (in_owner x) as [m|] eqn:F; [discriminate|]. eapply elem_of_list_lookup_2. apply (i_res _ (v_i _ HI)). eauto.
  - intros i f w H. apply E_bu_some in H. eapply td_from_node; [apply HI|exact H].
Qed.
Lemma TI_shrink b E (N N' : ptr -> Prop) t : TI b E N t -> (forall n, N' n -> N n) -> (forall n, N n -> st t n = Frontier -> N' n) -> TI b E N' t.
Proof. intros [F L C R A] H1 H2. constructor; auto. Qed.
Lemma bu_node_destroy r r' t n : Inv r -> is_node r n -> nsuccessors r n = 0 -> BUI r t -> (forall m, is_node r' m <-> is_node r m /\ m <> n) ->
  E_td r' = foldr delete (E_td r) (node_inputs r n) ->
  BUI r' (bu_obs (ENodeDestroy n) r t) /\ forall m, m <> n -> (st (bu_obs (ENodeDestroy n) r t) m = Behind <-> st t m = Behind).
Proof.
  intros HI Hn Hz HT Hm HE. cbn [bu_obs].
  assert (BUI r (if is_visited t n then t else bu_mark r n t) /\ forall m, st (if is_visited t n then t else bu_mark r n t) m = Behind <-> m = n \/ st t m = Behind) as [H1 H2].
  { rewrite is_visited_st. destruct (st t n) eqn:E; simpl.
    - exfalso. pose proof (ti_ahead _ _ _ _ HT eq_refl n Hn E) as K. rewrite deg_bu in K by apply HI. lia.
    - apply bu_visit; assumption.
    - split; [assumption|]. intros m. split; [auto|]. intros [->|K]; assumption. }
  set (t1 := if is_visited t n then t else bu_mark r n t) in *.
  assert (foldl (fun t i => with_node (origin_node r i) (fun p => dec_activation p 0) t) t1 (node_inputs r n) = foldl (fun t i => with_node (E_bu r !! i ≫= snd) (fun p => dec_activation p 0) t) t1 (node_inputs r n)) as ->.
  { apply foldl_ext'. intros t0 i. now rewrite bu_snd. }
  destruct (TI_delete_edges true (is_node r) (node_inputs r n) (E_bu r) t1 H1) as [H3 H4].
  - apply node_inputs_nodup, HI.
  - intros i Hi. apply in_node_inputs in Hi; [|apply HI]. unfold input_node in Hi. destruct (inputs r !! i) as [x|] eqn:Hx; [|discriminate]. simpl in Hi.
    exists (Some n), (in_origin x ≫= output_node r). split; [apply E_bu_some, E_td_some; exists x; auto|]. split; [cbn; apply H2; auto|].
    intros m Hm'. destruct (in_origin x) as [o|]; [|discriminate]. simpl in Hm'. apply output_node_some in Hm' as (nd & Hnd & _); [now exists nd|apply HI].
  - cbv zeta in H3, H4. set (t2 := foldl _ t1 _) in *. split.
    + assert (E_bu r' = foldr delete (E_bu r) (node_inputs r n)) as ->.
      { unfold E_bu. rewrite HE. generalize (node_inputs r n). induction l as [|i l IH]; [reflexivity|]. cbn [foldr]. now rewrite fmap_delete, IH. }
      eapply TI_shrink; [exact H3|intros m K; now apply Hm|]. intros m K Hf. apply Hm. split; [assumption|]. intros ->.
      assert (st t2 n = Behind) as Q by (apply H4, H2; auto). congruence.
    + intros m D. rewrite (H4 m), (H2 m). tauto.
Qed.

Lemma bu_remove_loop ix l : forall live (s s' : region * tracker) live', Core None s.1 -> (forall i, i ∈ l -> is_input s.1 i) -> NoDup l ->
  BUI s.1 s.2 -> remove_inputs_loop bu_obs ix l live s = Some (s', live') -> BUI s'.1 s'.2 /\ same_behind s.2 s'.2 /\ same_shape s.1 s'.1.
Proof.
  induction l as [|i l IH]; intros live s s' live' HC Hl Hnd HT HE; cbn [remove_inputs_loop] in HE.
  { injection HE as <- _. split; [assumption|]. split; [apply sb_refl|apply same_shape_refl]. }
  apply NoDup_cons in Hnd as [Hi Hnd]. destruct (Hl i (elem_of_list_here _ _)) as [x Hx]. rewrite Hx in HE. cbn [mbind option_bind] in HE.
  assert (forall j, j ∈ l -> j <> i) as Hjl by (intros j H ->; contradiction).
  destruct (decide (in_index x ∈ ix)) as [D|D].
  - destruct (destroy_input_ok i x s.1 HC Hx) as (r1 & o & Ho & E1 & HC1 & HS1 & Hin1 & _).
    unfold lift, notify in HE. cbn [fst snd] in HE. rewrite E1 in HE. cbn [mbind option_bind] in HE.
    set (t1 := bu_obs (EInputDestroy i) s.1 s.2) in *.
    assert (E_td s.1 !! i = Some (output_node s.1 o, owner_node (in_owner x))) as Hei by (apply E_td_some; exists x; rewrite Ho; auto).
    destruct (bu_input_destroy s.1 s.2 i _ _ (is_node s.1) HC HT Hei) as [HT1 SB1].
    { intros n E. apply output_node_some in E as (nd & H & _); [now exists nd|apply HC]. }
    fold t1 in HT1, SB1. assert (E_td r1 = delete i (E_td s.1)) as HE1 by (apply E_td_delete; [assumption|intros o'; now apply ss_onode]).
    apply E_bu_delete in HE1.
    destruct (IH live (r1, t1) s' live') as (A1 & A2 & A3); cbn [fst snd]; auto.
    + intros j H. unfold is_input. rewrite Hin1, lookup_delete_ne by (intros ->; contradiction). apply Hl. now right.
    + rewrite HE1. eapply TI_N; [exact HT1|]. intros n. symmetry. now apply ss_is_node.
    + split; [assumption|]. split; [eapply sb_trans; eassumption|eapply same_shape_trans; eassumption].
  - set (r1 := set_inputs <[i := with_in_index (length live) x]> s.1) in *.
    assert (E_bu r1 = E_bu s.1) as HE1 by (apply E_bu_same; now apply E_td_reindex).
    destruct (IH (live ++ [i]) (r1, s.2) s' live') as (A1 & A2 & A3); cbn [fst snd]; auto.
    + now apply Core_reindex.
    + intros j H. unfold is_input, r1. simpl. rewrite lookup_insert_ne by (intros ->; contradiction). apply Hl. now right.
    + now rewrite HE1.
    + split; [assumption|]. split; [assumption|]. eapply same_shape_trans; [apply same_shape_inputs|exact A3].
Qed.
Lemma bu_divert i o (s s' : region * tracker) : Inv s.1 -> is_input s.1 i -> BUI s.1 s.2 -> divert_to bu_obs i o s = Ok s' ->
  BUI s'.1 s'.2 /\ keeps s.1 s.2 s'.1 s'.2.
Proof.
  intros HI Hi HT HE. destruct (divert_effect bu_obs i o s s' HI Hi HE) as (HI' & HS & [->|(o0 & f & f' & w & Ht & Hf & HE' & H1 & H2 & _ & HN & HN')]); [split; [assumption|apply keeps_refl]|].
  destruct (bu_input_change s.1 s'.1 s.2 i o0 o f f' w (is_node s.1) (v_core _ HI') HT Hf HE' H1 H2 HN HN') as [K1 K2]. rewrite <- Ht in K1, K2. split.
  - eapply TI_N; [exact K1|]. intros n. symmetry. now apply ss_is_node.
  - now apply ss_keeps.
Qed.
Lemma bu_divert_users fuel o o' y' : forall (s s' : region * tracker) y, Inv s.1 -> BUI s.1 s.2 -> o <> o' -> outputs s.1 !! o = Some y -> outputs s.1 !! o' = Some y' -> out_type y = out_type y' ->
  divert_users_loop bu_obs fuel o o' s = Ok s' -> BUI s'.1 s'.2 /\ keeps s.1 s.2 s'.1 s'.2.
Proof.
  revert y'. induction fuel as [|fuel IH]; intros y' s s' y HI HT Hne Hy Hy' Hty HE; cbn [divert_users_loop] in HE; rewrite Hy in HE.
  - destruct (out_users y); [|discriminate]. injection HE as <-. split; [assumption|apply keeps_refl].
  - destruct (out_users y) as [|i l] eqn:Hu; [injection HE as <-; split; [assumption|apply keeps_refl]|].
    destruct (divert_to bu_obs i o' s) as [s1|s1|] eqn:E1; [|discriminate|discriminate].
    assert (is_input s.1 i) as Hi. { destruct (e_users _ _ (k_e _ _ (v_core _ HI)) o y i Hy) as (x & Hx & _); [rewrite Hu; now left|now exists x]. }
    destruct (bu_divert i o' s s1 HI Hi HT E1) as [HT1 K1]. destruct (divert_effect bu_obs i o' s s1 HI Hi E1) as (HI1 & HS1 & _).
    destruct (ss_out_l _ _ _ _ HS1 Hy) as (y1 & Hy1 & F1). destruct (ss_out_l _ _ _ _ HS1 Hy') as (y1' & Hy1' & F1').
    apply shape_out_inv in F1 as (_ & _ & F1). apply shape_out_inv in F1' as (_ & _ & F1').
    destruct (IH y1' s1 s' y1 HI1 HT1 Hne Hy1 Hy1') as [HT2 K2]; [congruence|assumption|]. split; [assumption|]. eapply keeps_trans; eassumption.
Qed.
Lemma bu_remove_node p nd (s s' : region * tracker) : Inv s.1 -> nodes s.1 !! p = Some nd -> nd_succ nd = 0 -> BUI s.1 s.2 -> remove_node bu_obs p s = Some s' ->
  BUI s'.1 s'.2 /\ keeps s.1 s.2 s'.1 s'.2.
Proof.
  intros HI Hp Hz HT HE. destruct (destroy_effect bu_obs p nd s HI Hp Hz) as (s1 & E & HI' & Ht & Hn & Hsh & Hid & H0 & _). rewrite E in HE. injection HE as ->.
  destruct (bu_node_destroy s.1 s'.1 s.2 p HI) as [K1 K2]; [now exists nd|unfold nsuccessors; now rewrite Hp|assumption..|]. rewrite <- Ht in K1, K2. split; [assumption|]. split; [lia|].
  intros n nd' Hn' _. assert (n <> p) as D. { intros ->. assert (is_node s'.1 p) as Q by now exists nd'. apply Hn in Q. tauto. }
  specialize (Hsh n D). rewrite Hn' in Hsh. destruct (nodes s.1 !! n) as [nd0|]; [|discriminate]. exists nd0. simpl in Hsh. injection Hsh as E1 _ _. split; [reflexivity|]. split; [congruence|]. now rewrite K2.
Qed.
Lemma bu_prune_loop fuel : forall s s' : region * tracker, Inv s.1 -> BUI s.1 s.2 -> prune_loop bu_obs fuel s = Some s' -> BUI s'.1 s'.2 /\ keeps s.1 s.2 s'.1 s'.2.
Proof.
  induction fuel as [|fuel IH]; intros s s' HI HT HE; cbn [prune_loop] in HE.
  - destruct (il_elems (bottom s.1)); [|discriminate]. injection HE as <-. split; [assumption|apply keeps_refl].
  - destruct (il_elems (bottom s.1)) as [|p l] eqn:Eb; [injection HE as <-; split; [assumption|apply keeps_refl]|].
    assert (p ∈ il_elems (bottom s.1)) as H by (rewrite Eb; now left). apply (b_iff _ (k_b _ _ (v_core _ HI))) in H as (nd & Hp & Hz).
    destruct (remove_node bu_obs p s) as [s1|] eqn:E1; [|discriminate]. cbn in HE.
    destruct (bu_remove_node p nd s s1 HI Hp Hz HT E1) as [HT1 K1]. destruct (destroy_effect bu_obs p nd s HI Hp Hz) as (s2 & E2 & HI2 & _). assert (s2 = s1) as -> by congruence.
    destruct (IH s1 s' HI2 HT1 HE) as [HT2 K2]. split; [assumption|]. eapply keeps_trans; eassumption.
Qed.
Lemma bu_exec c (s s' : region * tracker) : Inv s.1 -> legal c s.1 -> BUI s.1 s.2 -> no_creation c s.1 -> exec bu_obs c s = Ok s' ->
  BUI s'.1 s'.2 /\ keeps s.1 s.2 s'.1 s'.2.
Proof.
  intros HI HL HT Hg HE. destruct (unheard c) eqn:Hu.
  { destruct (unheard_effect bu_obs c s s' HI HL Hu HE) as (H1 & H2 & H3 & H4). rewrite H2. split; [|now apply keeps_same; [| |apply sb_refl]].
    assert (forall n, is_node s'.1 n <-> is_node s.1 n) as Hn.
    { intros n. specialize (H3 n). unfold is_node. destruct (nodes s'.1 !! n), (nodes s.1 !! n); try discriminate; split; intros [? ?]; try discriminate; eexists; reflexivity. }
    rewrite (E_bu_same _ _ H1). eapply TI_N; [exact HT|]. intros n. symmetry. apply Hn. }
  destruct c; try discriminate; try contradiction; cbn [exec] in HE.
  - destruct HL as [[nd Hp] Hi]. pose proof (add_input_ok bu_obs p i o ty true s nd HI Hp Hi) as K. rewrite HE in K. destruct K as (HI' & _ & (nd' & Hp' & _ & _ & Hnid) & Hn & Ho & Hin & _ & _ & Hid & _ & Ht).
    destruct (new_input_effect s s' i _ HI Hi Hin Ho) as [H1 H2]. simpl in H2.
    destruct (bu_input_create s.1 s'.1 s.2 i _ _ (is_node s.1) (v_core _ HI') HT H1 H2) as [K1 K2]; [intros n E; apply output_node_some in E as (nd2 & H & _); [now exists nd2|apply HI]|]. rewrite <- Ht in K1, K2.
    assert (forall n, nd_id <$> nodes s'.1 !! n = nd_id <$> nodes s.1 !! n) as Hids.
    { intros n. destruct (decide (n = p)) as [->|D]; [rewrite Hp, Hp'; simpl; congruence|now apply shape_id, Hn]. }
    assert (forall n, is_node s'.1 n <-> is_node s.1 n) as Hnn.
    { intros n. specialize (Hids n). unfold is_node. destruct (nodes s'.1 !! n), (nodes s.1 !! n); try discriminate; split; intros [? ?]; try discriminate; eexists; reflexivity. }
    split; [|apply keeps_same; auto]. eapply TI_N; [exact K1|]. intros n. symmetry. apply Hnn.
  - destruct HL as (nd & Hp & Hne). unfold remove_inputs in HE. destruct (decide (indices = [])) as [D|D]; [cbn in HE; injection HE as <-; split; [assumption|apply keeps_refl]|].
    rewrite Hp in HE. cbn [mbind option_bind] in HE. destruct (remove_inputs_loop bu_obs indices (nd_inputs nd) [] s) as [[s1 live]|] eqn:El; [|discriminate]. cbn [mbind option_bind] in HE.
    destruct (bu_remove_loop indices (nd_inputs nd) [] s s1 live (v_core _ HI)) as (K1 & K2 & K3); auto.
    + intros i H. apply (node_inputs_ok s.1 p nd (v_i _ HI) Hp i H).
    + eapply OwnI_nodup; [apply HI|exact Hp].
    + destruct (nodes s1.1 !! p) as [nd1|] eqn:Hp1; [|discriminate]. cbn [mbind option_bind] in HE.
      assert (exists r, s' = (r, s1.2) /\ inputs r = inputs s1.1 /\ outputs r = outputs s1.1 /\ nodes r = <[p := with_inputs live nd1]> (nodes s1.1) /\ next_id r = next_id s1.1) as (r & -> & R1 & R2 & R3 & R4).
      { destruct (decide (live = [])).
        - unfold lift, on_top_added in HE. cbn in HE. destruct (il_push p (top s1.1)) as [l|]; [|discriminate]. cbn in HE. injection HE as <-. eexists. split; [reflexivity|]. auto.
        - cbn in HE. injection HE as <-. eexists. split; [reflexivity|]. auto. }
      cbn [fst snd]. assert (E_td r = E_td s1.1) as HEr. { apply E_td_same; [intros i; now rewrite R1|]. intros i x o _ _. unfold output_node. now rewrite R2. }
      assert (forall n, nd_id <$> nodes r !! n = nd_id <$> nodes s1.1 !! n) as Hids.
      { intros n. rewrite R3. destruct (decide (n = p)) as [->|Dn]; [rewrite lookup_insert, Hp1; reflexivity|now rewrite lookup_insert_ne by auto]. }
      assert (forall n, is_node r n <-> is_node s.1 n) as Hnn.
      { intros n. rewrite <- (ss_is_node _ _ n K3). specialize (Hids n). unfold is_node. destruct (nodes r !! n), (nodes s1.1 !! n); try discriminate; split; intros [? ?]; try discriminate; eexists; reflexivity. }
      split.
      * rewrite (E_bu_same _ _ HEr). eapply TI_N; [exact K1|]. intros n. rewrite Hnn. now apply ss_is_node.
      * eapply keeps_trans; [exact (ss_keeps _ _ _ _ K3 K2)|]. apply keeps_same; [assumption|assumption|apply sb_refl].
  - pose proof (add_result_ok bu_obs i o ty s HI HL) as K. rewrite HE in K. destruct K as (HI' & _ & Hin & _ & Hn & Ho & _ & _ & Hid & Ht).
    destruct (new_input_effect s s' i _ HI HL Hin (fun o' => eq_sym (Ho o'))) as [H1 H2]. simpl in H2.
    destruct (bu_input_create s.1 s'.1 s.2 i _ _ (is_node s.1) (v_core _ HI') HT H1 H2) as [K1 K2]; [intros n E; apply output_node_some in E as (nd2 & H & _); [now exists nd2|apply HI]|]. rewrite <- Ht in K1, K2.
    assert (forall n, is_node s'.1 n <-> is_node s.1 n) as Hnn by (intros n; apply is_node_shape; symmetry; apply Hn).
    split; [|apply keeps_same; auto].
    + eapply TI_N; [exact K1|]. intros n. symmetry. apply Hnn.
    + intros n. apply shape_id. symmetry. apply Hn.
  - unfold remove_results in HE. destruct (decide (indices = [])) as [D|D]; [cbn in HE; injection HE as <-; split; [assumption|apply keeps_refl]|].
    destruct (remove_inputs_loop bu_obs indices (results s.1) [] s) as [[s1 live]|] eqn:El; [|discriminate]. cbn in HE. injection HE as <-. cbn [fst snd].
    assert (forall i, i ∈ results s.1 -> exists x, inputs s.1 !! i = Some x /\ in_owner x = ORegion) as Hres.
    { intros i H. apply elem_of_list_lookup in H as [k H]. apply (i_res _ (v_i _ HI)) in H as (x & Hx & E & _). eauto. }
    destruct (bu_remove_loop indices (results s.1) [] s s1 live (v_core _ HI)) as (K1 & K2 & K3); auto.
    + intros i H. destruct (Hres i H) as (x & Hx & _). now exists x.
    + apply NoDup_alt. intros k k' i H1 H2. apply (i_res _ (v_i _ HI)) in H1 as (x & Hx & _ & E1). apply (i_res _ (v_i _ HI)) in H2 as (y & Hy & _ & E2). congruence.
    + split.
      * eapply TI_N; [exact K1|]. intros n. reflexivity.
      * eapply keeps_trans; [exact (ss_keeps _ _ _ _ K3 K2)|]. apply keeps_same; [reflexivity|reflexivity|apply sb_refl].
  - apply (bu_divert i o); assumption.
  - unfold divert_users in HE. destruct (decide (o = o')) as [D|D]; [injection HE as <-; split; [assumption|apply keeps_refl]|].
    pose proof (divert_users_ok bu_obs o o' s HI HL) as K. unfold divert_users in K. rewrite decide_False in K by assumption. destruct HL as [y Hy]. rewrite Hy in HE, K. rewrite HE in K.
    destruct K as (_ & _ & [[K _]|[[K ->]|(_ & [y' Hy'] & _)]]); [contradiction|split; [assumption|apply keeps_refl]|].
    destruct (out_users y) as [|i l] eqn:Hus.
    { cbn [length divert_users_loop] in HE. rewrite Hy, Hus in HE. injection HE as <-. split; [assumption|apply keeps_refl]. }
    assert (out_type y = out_type y') as Hty.
    { cbn [length divert_users_loop] in HE. rewrite Hy, Hus in HE. destruct (divert_to bu_obs i o' s) as [s1| |] eqn:E1; [|discriminate|discriminate].
      destruct (e_users _ _ (k_e _ _ (v_core _ HI)) o y i Hy) as (x & Hx & Hox); [rewrite Hus; now left|].
      destruct (e_in _ _ (k_e _ _ (v_core _ HI)) i x Hx ltac:(discriminate)) as (o1 & y1 & Ho1 & Hy1 & _ & Ht1). assert (o1 = o) as -> by congruence. assert (y1 = y) as -> by congruence.
      unfold divert_to in E1. rewrite Hx, Hox, decide_False in E1 by assumption. destruct (check_types o' (in_type x) s.1) eqn:Ec; [|discriminate].
      apply check_types_true in Ec as (y2 & Hy2 & Ec). congruence. }
    eapply bu_divert_users; [exact HI|exact HT|exact D|exact Hy|exact Hy'|exact Hty|exact HE].
  - destruct HL as (nd & Hp & Hz). destruct (remove_node bu_obs p s) as [s1|] eqn:E1; [|discriminate]. cbn in HE. injection HE as ->. exact (bu_remove_node p nd s s' HI Hp Hz HT E1).
  - unfold prune in HE. destruct (prune_loop bu_obs (size (nodes s.1)) s) as [s1|] eqn:E1; [|discriminate]. cbn in HE. injection HE as ->. eapply bu_prune_loop; [exact HI|exact HT|exact E1].
Qed.
