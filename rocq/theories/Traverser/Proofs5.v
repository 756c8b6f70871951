(** TopDownTraverser: what each notification and each command does to its tracker *)
From stdpp Require Import base list gmap.
From Verif.Region Require Import Model Spec Proofs Proofs2 Proofs3 Proofs4 Proofs5 Proofs6 Proofs7 Proofs8 Proofs9.
From Verif.Traverser Require Import Model Proofs Proofs2 Proofs3 Proofs4.

Lemma foldl_ext' {A B} (f g : A -> B -> A) l : (forall a b, f a b = g a b) -> forall a, foldl f a l = foldl g a l.
Proof. intros H. induction l as [|b l IH]; intros a; cbn [foldl]; [reflexivity|]. now rewrite H, IH. Qed.
Lemma TI_boundary_edge b N E t i f f' : TI b E N t -> E !! i = Some (f, None) -> TI b (<[i := (f', None)]> E) N t.
Proof.
  intros HT Hi. pose proof (TI_delete_edge b N E t i f None 0 0 HT Hi ltac:(discriminate) ltac:(discriminate)) as H1.
  pose proof (TI_add_edge b N (delete i E) t i f' None H1 (lookup_delete _ _) ltac:(discriminate)) as H2. cbv zeta in H2. now rewrite insert_delete_insert in H2.
Qed.
Lemma TI_N b E (N N' : ptr -> Prop) t : TI b E N t -> (forall n, N n <-> N' n) -> TI b E N' t.
Proof. intros H HN. eapply TI_ext; [exact H|reflexivity|assumption]. Qed.

Definition TDI (b : bool) (r : region) (t : tracker) : Prop := TI b (E_td r) (is_node r) t /\ forall n, st t n = Behind -> is_node r n.
(** old nodes keep their id and their status *)
Definition keeps (r : region) (t : tracker) (r' : region) (t' : tracker) : Prop :=
  next_id r <= next_id r' /\
  forall n nd', nodes r' !! n = Some nd' -> nd_id nd' < next_id r -> exists nd, nodes r !! n = Some nd /\ nd_id nd = nd_id nd' /\ (st t' n = Behind <-> st t n = Behind).
Lemma keeps_refl r t : keeps r t r t.
Proof. split; [lia|]. intros n nd H _. exists nd. tauto. Qed.
Lemma keeps_trans r t r1 t1 r2 t2 : keeps r t r1 t1 -> keeps r1 t1 r2 t2 -> keeps r t r2 t2.
Proof.
  intros [A1 A2] [B1 B2]. split; [lia|]. intros n nd2 H2 Hid. destruct (B2 n nd2 H2) as (nd1 & H1 & E1 & S1); [lia|].
  destruct (A2 n nd1 H1) as (nd & H & E & S); [lia|]. exists nd. split; [assumption|]. split; [congruence|]. rewrite S1. exact S.
Qed.
Lemma is_node_shape r r' n : shape_node <$> nodes r' !! n = shape_node <$> nodes r !! n -> is_node r' n <-> is_node r n.
Proof. unfold is_node. intros H. destruct (nodes r' !! n), (nodes r !! n); try discriminate; split; intros [? ?]; try discriminate; eexists; reflexivity. Qed.
Lemma ninputs_shape r r' n : shape_node <$> nodes r' !! n = shape_node <$> nodes r !! n -> ninputs r' n = ninputs r n.
Proof. unfold ninputs. intros H. destruct (nodes r' !! n), (nodes r !! n); try discriminate; [|reflexivity]. simpl in H. injection H as _ H _. now rewrite H. Qed.
Lemma keeps_same r t r' t' : next_id r' = next_id r -> (forall n, (nd_id <$> nodes r' !! n) = (nd_id <$> nodes r !! n)) -> same_behind t t' -> keeps r t r' t'.
Proof.
  intros Hid Hn SB. split; [lia|]. intros n nd' H _. specialize (Hn n). rewrite H in Hn. destruct (nodes r !! n) as [nd|]; [|discriminate]. exists nd. simpl in Hn.
  split; [reflexivity|]. split; [congruence|apply SB].
Qed.
Lemma shape_id (x : option node) (y : option node) : shape_node <$> x = shape_node <$> y -> nd_id <$> x = nd_id <$> y.
Proof. intros H. destruct x, y; try discriminate; [|reflexivity]. simpl in *. injection H as H _ _. now rewrite H. Qed.

Section TD.
  Context (b : bool).

  (** the tracker after a notification of a new input *)
  Lemma td_input_create r r' t i f w (N : ptr -> Prop) : OwnI r' -> TI b (E_td r) N t -> E_td r !! i = None -> E_td r' = <[i := (f, w)]> (E_td r) -> (forall n, w = Some n -> N n) ->
    TI b (E_td r') N (td_obs (EInputCreate i) r' t) /\ same_behind t (td_obs (EInputCreate i) r' t).
  Proof.
    intros HI HT Hi HE Hw. assert (E_td r' !! i = Some (f, w)) as Hi' by (rewrite HE; apply lookup_insert). apply td_fst in Hi' as [Hf Hw'].
    cbn [td_obs]. rewrite Hw'. destruct w as [n|]; cbn [with_node].
    - rewrite td_input_activated_iff, Hf, if_bool_decide. rewrite <- (deg_td r' n HI). split.
      + pose proof (TI_add_edge b N (E_td r) t i f (Some n) HT Hi Hw) as K. cbv zeta in K. rewrite <- HE in K. exact K.
      + destruct (decide (active t f)); [apply sb_inc, HT|apply sb_deact, HT].
    - split; [|apply sb_refl]. pose proof (TI_add_edge b N (E_td r) t i f None HT Hi Hw) as K. cbv zeta in K. rewrite <- HE in K. exact K.
  Qed.
  Lemma td_input_change r r' t i o o' f f' w (N : ptr -> Prop) : OwnI r -> (forall n, ninputs r' n = ninputs r n) -> TI b (E_td r) N t ->
    E_td r !! i = Some (f, w) -> E_td r' = <[i := (f', w)]> (E_td r) -> output_node r' o = f -> output_node r' o' = f' -> (forall n, w = Some n -> N n) ->
    TI b (E_td r') N (td_obs (EInputChange i o o') r' t) /\ same_behind t (td_obs (EInputChange i o o') r' t).
  Proof.
    intros HI Hn HT Hi HE Hf Hf' Hw. assert (E_td r' !! i = Some (f', w)) as Hi' by (rewrite HE; apply lookup_insert). apply td_fst in Hi' as [_ Hw'].
    cbn [td_obs]. rewrite Hw'. destruct w as [n|]; cbn [with_node].
    - rewrite !td_activated_iff, Hf, Hf', Hn, <- (deg_td r n HI). split.
      + pose proof (TI_change_from b N (E_td r) t i f f' n HT Hi (Hw n eq_refl)) as K. cbv zeta in K. rewrite <- HE in K. exact K.
      + destruct (bool_decide (active t f')), (bool_decide (active t f)); [apply sb_refl|apply sb_inc, HT|apply sb_dec, HT|apply sb_refl].
    - split; [|apply sb_refl]. rewrite HE. eapply TI_boundary_edge; eassumption.
  Qed.
  Lemma td_input_destroy r t i f w (N : ptr -> Prop) : TI b (E_td r) N t -> E_td r !! i = Some (f, w) -> (forall n, w = Some n -> N n) ->
    (forall n, w = Some n -> deg (E_td r) n <= ninputs r n /\ (b = true -> ninputs r n = deg (E_td r) n)) ->
    TI b (delete i (E_td r)) N (td_obs (EInputDestroy i) r t) /\ same_behind t (td_obs (EInputDestroy i) r t).
  Proof.
    intros HT Hi Hw Hd. destruct (td_fst _ _ _ _ Hi) as [Hf Hw']. cbn [td_obs]. rewrite Hw'. destruct w as [n|]; cbn [with_node].
    - rewrite td_input_activated_iff, Hf, if_bool_decide. split.
      + apply (TI_delete_edge b N (E_td r) t i f (Some n) 0 (ninputs r n - 1) HT Hi Hw). intros m E. injection E as <-. destruct (Hd n eq_refl) as [D1 D2]. split; [lia|]. intros Hb. rewrite (D2 Hb). reflexivity.
      + destruct (decide (active t f)); [apply sb_dec, HT|apply sb_act, HT].
    - split; [|apply sb_refl]. apply (TI_delete_edge b N (E_td r) t i f None 0 0 HT Hi Hw). discriminate.
  Qed.
  Lemma td_node_create r r' t n : OwnI r -> OwnI r' -> TDI b r t -> nodes r !! n = None -> is_node r' n -> (forall m, m <> n -> is_node r' m <-> is_node r m) ->
    (forall i, i ∈ node_inputs r' n -> inputs r !! i = None) -> (forall i, i ∉ node_inputs r' n -> E_td r' !! i = E_td r !! i) -> (forall i w, E_td r' !! i <> Some (Some n, w)) ->
    TDI b r' (td_obs (ENodeCreate n) r' t) /\ forall m, m <> n -> st (td_obs (ENodeCreate n) r' t) m = st t m.
  Proof.
    intros HI HI' [HT HB] Hn Hn' Hm HL HE Hfrom. assert (~ is_node r n) as Hnn by (unfold is_node; rewrite Hn; intros [? ?]; discriminate).
    assert (st t n = Ahead) as Hs. { destruct (st t n) eqn:E; [reflexivity|exfalso; apply Hnn, (ti_live _ _ _ _ HT n E)|exfalso; apply Hnn, HB, E]. }
    assert (deg (E_td r) n = 0) as Hd by (rewrite deg_td by assumption; unfold ninputs; now rewrite Hn).
    assert (ct t n = 0) as Hc. { rewrite (ti_count _ _ _ _ HT n). pose proof (cnt_le_deg (E_td r) t n). lia. }
    assert (ninputs r' n = length (node_inputs r' n)) as Hni by (unfold ninputs, node_inputs; now destruct (nodes r' !! n)).
    set (L := node_inputs r' n) in *. set (P := fun i => td_input_activated r' t i).
    pose proof (TI_new_node b (is_node r) (E_td r) (E_td r') t n L P HT Hs Hc) as K. cbv zeta in K.
    assert (td_obs (ENodeCreate n) r' t = mark_if_frontier n (if decide (L = []) then check_activation n 0 t else foldl (fun t i => if P i then inc_activation n (length L) t else t) t L)) as ->.
    { cbn [td_obs]. fold L. rewrite Hni. destruct (decide (L = [])) as [E|E].
      - rewrite decide_True by (rewrite E; reflexivity). now rewrite E.
      - rewrite decide_False by (destruct L; [contradiction|discriminate]). f_equal.
        apply (foldl_sb (fun (c : bool) (_ : nat) t => if c then inc_activation n (length L) t else t) (fun t i => td_input_activated r' t i) L).
        + intros t0 c _ F. destruct c; [split; [apply inc_spec, F|apply sb_inc, F]|split; [assumption|apply sb_refl]].
        + intros t0 t1 i SB. rewrite !td_input_activated_iff. apply bool_decide_ext. now apply active_sb.
        + apply HT.
        + apply sb_refl. }
    destruct K as [K1 K2].
    - apply node_inputs_nodup. assumption.
    - intros i Hi. split; [rewrite E_td_lookup, (HL i Hi); reflexivity|]. pose proof Hi as Hi'. unfold L in Hi'. rewrite in_node_inputs in Hi' by assumption.
      exists (origin_node r' i). unfold input_node in Hi'. destruct (inputs r' !! i) as [x|] eqn:Hx; [|discriminate]. simpl in Hi'. split.
      + apply E_td_some. exists x. split; [assumption|]. split; [unfold origin_node; now rewrite Hx|now rewrite Hi'].
      + unfold P. rewrite td_input_activated_iff. apply bool_decide_eq_true.
    - assumption.
    - intros i f Hi. apply Hnn. eapply td_to_node; eassumption.
    - assumption.
    - split; [|assumption]. split.
      + eapply TI_N; [exact K1|]. intros m. destruct (decide (m = n)) as [->|D]; [split; [auto|intros _; now right]|]. rewrite Hm by assumption. tauto.
      + intros m H. destruct (decide (m = n)) as [->|D]; [assumption|]. rewrite K2 in H by assumption. apply Hm; auto.
  Qed.
  Lemma td_node_destroy r r' t n : OwnI r -> TDI b r t -> (forall m, is_node r' m <-> is_node r m /\ m <> n) ->
    (forall i, i ∈ node_inputs r n -> inputs r' !! i = None) -> (forall i, i ∉ node_inputs r n -> E_td r' !! i = E_td r !! i) -> (forall i w, E_td r !! i <> Some (Some n, w)) ->
    TDI b r' (td_obs (ENodeDestroy n) r t) /\ forall m, m <> n -> st (td_obs (ENodeDestroy n) r t) m = st t m.
  Proof.
    intros HI [HT HB] Hm HL HE Hfrom. cbn [td_obs]. destruct (TI_forget b (is_node r) (E_td r) (E_td r') t n HT) as (H1 & H2 & _); [|assumption|].
    - intros i f w. destruct (decide (i ∈ node_inputs r n)) as [D|D].
      + rewrite E_td_lookup, (HL i D). simpl. split; [discriminate|]. intros [H1 H2]. exfalso. apply H2. apply td_fst in H1 as [_ <-]. now apply in_node_inputs.
      + rewrite HE by assumption. split; [|tauto]. intros H. split; [assumption|]. intros ->. apply D. apply in_node_inputs; [assumption|]. now apply td_fst in H as [_ H].
    - split; [split|].
      + eapply TI_N; [exact H1|]. intros m. symmetry. apply Hm.
      + intros m. rewrite H2. cased D; [discriminate|]. intros K. apply Hm. auto.
      + intros m D. rewrite H2, decide_False by assumption. reflexivity.
  Qed.
  Lemma td_visit r t n : Inv r -> TDI b r t -> st t n = Frontier -> TDI b r (td_mark r n t) /\ forall m, st (td_mark r n t) m = Behind <-> m = n \/ st t m = Behind.
  Proof.
    intros HI [HT HB] Hn. assert (td_mark r n t = foldl (fun t i => with_node (E_td r !! i ≫= snd) (fun n => inc_activation n (deg (E_td r) n)) t) (mark_if_frontier n t) (node_users r n)) as ->.
    { unfold td_mark. apply foldl_ext'. intros t0 i. unfold td_inc_user. rewrite td_snd. destruct (input_node r i); [|reflexivity]. cbn [with_node]. now rewrite deg_td by apply HI. }
    destruct (TI_visit b (is_node r) (E_td r) t n (node_users r n) HT Hn) as [H1 H2].
    - apply node_users_nodup, HI.
    - intros i. rewrite in_node_users by apply HI. split.
      + intros H. unfold origin_node in H. destruct (inputs r !! i) as [x|] eqn:Hx; [|discriminate]. simpl in H. exists (owner_node (in_owner x)). apply E_td_some. eauto.
      + intros [w H]. now apply td_fst in H as [H _].
    - intros i _ m H. rewrite td_snd in H. apply input_node_some in H as (nd & H & _); [now exists nd|apply HI].
    - split; [split; [exact H1|]|exact H2]. intros m Hm. apply H2 in Hm as [->|Hm]; [|auto]. apply (ti_live _ _ _ _ HT). assumption.
  Qed.
  Lemma td_init_ok r : Inv r -> TDI b r (td_init r) /\ forall m, st (td_init r) m <> Behind.
  Proof.
    intros HI. pose proof (v_core _ HI) as HC. pose proof HC as [HE HO HB].
    assert (td_init r = foldl (fun t i => with_node (E_td r !! i ≫= snd) (fun n => inc_activation n (deg (E_td r) n)) t)
       (foldl (fun t n => check_activation n (deg (E_td r) n) t) no_tracker (il_elems (top r))) (concat (map (users_at r) (args r)))) as ->.
    { unfold td_init. rewrite (foldl_ext' (fun t n => check_activation n (ninputs r n) t) (fun t n => check_activation n (deg (E_td r) n) t)) by (intros t n; now rewrite deg_td by apply HI).
      apply foldl_ext'. intros t0 i. unfold td_inc_user. rewrite td_snd. destruct (input_node r i); [|reflexivity]. cbn [with_node]. now rewrite deg_td by apply HI. }
    destruct (v_t _ HI) as [[T1 T2] T3].
    destruct (TI_init b (is_node r) (E_td r) (il_elems (top r)) (concat (map (users_at r) (args r)))) as [H1 H2].
    - assumption.
    - intros n. rewrite T3, deg_td by apply HI. unfold ninputs, is_node. split.
      + intros (nd & Hn & E). rewrite Hn, E. split; [now exists nd|reflexivity].
      + intros [[nd Hn] E]. rewrite Hn in E. exists nd. split; [assumption|]. now apply length_zero_iff_nil.
    - apply users_concat_nodup; [assumption|now apply args_nodup].
    - intros i. rewrite elem_of_list_In, in_concat. split.
      + intros (k & Hk & Hi). apply in_map_iff in Hk as (o & <- & Ho). apply elem_of_list_In in Hi, Ho. apply users_at_in in Hi as (x & Hx & Hox); [|assumption].
        exists (owner_node (in_owner x)). apply E_td_some. exists x. split; [assumption|]. split; [|reflexivity]. rewrite Hox. simpl. unfold output_node.
        apply elem_of_list_lookup in Ho as [k Ho]. apply (o_arg _ HO) in Ho as (y & Hy & F & _). rewrite Hy. simpl. now rewrite F.
      + intros [w Hi]. apply E_td_some in Hi as (x & Hx & Hf & _). destruct (e_in _ _ HE i x Hx ltac:(discriminate)) as (o & y & Ho & Hy & Hin & _).
        exists (users_at r o). split; [|apply elem_of_list_In; apply users_at_in; eauto]. apply in_map_iff. exists o. split; [reflexivity|]. apply elem_of_list_In.
        rewrite Ho in Hf. simpl in Hf. unfold output_node in Hf. rewrite Hy in Hf. simpl in Hf. destruct (out_owner y) as [n|] eqn:F; [discriminate|].
        eapply elem_of_list_lookup_2. apply (o_arg _ HO). eauto.
    - intros i f w Hi. eapply td_to_node; [apply HI|exact Hi].
    - split; [split; [exact H1|]|exact H2]. intros n Hn. destruct (H2 n Hn).
  Qed.
End TD.
