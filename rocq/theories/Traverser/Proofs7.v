(** TopDownTraverser: every command *)
From stdpp Require Import base list gmap.
From Verif.Region Require Import Model Spec Proofs Proofs2 Proofs3 Proofs4 Proofs5 Proofs6 Proofs7 Proofs8 Proofs9.
From Verif.Traverser Require Import Model Spec Proofs Proofs2 Proofs3 Proofs4 Proofs5 Proofs6.

Lemma shape_sym {A B} (f : A -> B) (x y : option A) : f <$> x = f <$> y -> f <$> y = f <$> x.
Proof. auto. Qed.
Lemma ss_is_node r r' n : same_shape r r' -> is_node r' n <-> is_node r n.
Proof. intros H. apply is_node_shape. symmetry. apply (ss_nodes _ _ H). Qed.
Lemma ss_onode r r' o : same_shape r r' -> output_node r' o = output_node r o.
Proof. intros H. apply output_node_shape. symmetry. apply (ss_outputs _ _ H). Qed.
Lemma ss_ninputs r r' n : same_shape r r' -> ninputs r' n = ninputs r n.
Proof. intros H. apply ninputs_shape. symmetry. apply (ss_nodes _ _ H). Qed.
Lemma ss_keeps r t r' t' : same_shape r r' -> same_behind t t' -> keeps r t r' t'.
Proof. intros H SB. apply keeps_same; [apply (ss_id _ _ H)| |assumption]. intros n. apply shape_id. symmetry. apply (ss_nodes _ _ H). Qed.

Lemma E_td_reindex r i x k : inputs r !! i = Some x -> E_td (set_inputs <[i := with_in_index k x]> r) = E_td r.
Proof.
  intros Hx. apply E_td_same; [|reflexivity]. intros j. simpl. destruct (decide (j = i)) as [->|D]; [rewrite lookup_insert, Hx; reflexivity|now rewrite lookup_insert_ne by auto].
Qed.

Section Cmd.
  Context (b : bool).

  Lemma td_remove_loop ix l : forall live (s s' : region * tracker) live', Core None s.1 -> (forall i, i ∈ l -> is_input s.1 i) -> NoDup l ->
    TI b (E_td s.1) (is_node s.1) s.2 ->
    (forall i n, input_node s.1 i = Some n -> i ∈ l -> is_node s.1 n /\ deg (E_td s.1) n <= ninputs s.1 n) ->
    (b = true -> (forall i x, i ∈ l -> inputs s.1 !! i = Some x -> in_index x ∉ ix) \/
       (forall i n, i ∈ l -> input_node s.1 i = Some n -> ninputs s.1 n = deg (E_td s.1) n) /\
       (forall i j x y, i ∈ l -> j ∈ l -> inputs s.1 !! i = Some x -> inputs s.1 !! j = Some y -> in_index x ∈ ix -> in_index y ∈ ix -> i = j) \/
       (forall i, i ∈ l -> input_node s.1 i = None)) ->
    remove_inputs_loop td_obs ix l live s = Some (s', live') ->
    TI b (E_td s'.1) (is_node s'.1) s'.2 /\ same_behind s.2 s'.2 /\ same_shape s.1 s'.1.
  Proof.
    induction l as [|i l IH]; intros live s s' live' HC Hl Hnd HT Hd Hb HE; cbn [remove_inputs_loop] in HE.
    { injection HE as <- _. split; [assumption|]. split; [apply sb_refl|apply same_shape_refl]. }
    apply NoDup_cons in Hnd as [Hi Hnd]. destruct (Hl i (elem_of_list_here _ _)) as [x Hx]. rewrite Hx in HE. cbn [mbind option_bind] in HE.
    destruct (decide (in_index x ∈ ix)) as [D|D].
    - destruct (destroy_input_ok i x s.1 HC Hx) as (r1 & o & Ho & E1 & HC1 & HS1 & Hin1 & _).
      unfold lift, notify in HE. cbn [fst snd] in HE. rewrite E1 in HE. cbn [mbind option_bind] in HE.
      set (t1 := td_obs (EInputDestroy i) s.1 s.2) in *.
      assert (E_td s.1 !! i = Some (output_node s.1 o, owner_node (in_owner x))) as Hei by (apply E_td_some; exists x; rewrite Ho; auto).
      assert (input_node s.1 i = owner_node (in_owner x)) as Hni by (now apply td_fst in Hei as [_ Hei]).
      destruct (td_input_destroy b s.1 s.2 i _ _ (is_node s.1) HT Hei) as [HT1 SB1].
      { intros n E. apply (Hd i n); [congruence|now left]. }
      { intros n E. split; [apply (Hd i n); [congruence|now left]|]. intros B. destruct (Hb B) as [K|[[K _]|K]].
        - exfalso. apply (K i x); [now left|assumption|assumption].
        - apply (K i n); [now left|congruence].
        - rewrite <- Hni, (K i) in E by now left. discriminate. }
      fold t1 in HT1, SB1. assert (E_td r1 = delete i (E_td s.1)) as HE1 by (apply E_td_delete; [assumption|intros o'; now apply ss_onode]).
      assert (forall j, j <> i -> inputs r1 !! j = inputs s.1 !! j) as Hj by (intros j Hj; rewrite Hin1; apply lookup_delete_ne; auto).
      assert (forall j, j <> i -> input_node r1 j = input_node s.1 j) as Hjn by (intros j Hj'; unfold input_node; now rewrite Hj).
      assert (forall j, j ∈ l -> j <> i) as Hjl by (intros j H ->; contradiction).
      destruct (IH live (r1, t1) s' live') as (A1 & A2 & A3); cbn [fst snd]; auto.
      + intros j H. unfold is_input. rewrite Hj by auto. apply Hl. now right.
      + rewrite HE1. eapply TI_N; [exact HT1|]. intros n. symmetry. now apply ss_is_node.
      + intros j n. intros E H. rewrite Hjn in E by auto. destruct (Hd j n E) as [K1 K2]; [now right|]. split; [now apply (ss_is_node _ _ n HS1)|]. rewrite HE1, (ss_ninputs _ _ n HS1).
        rewrite (deg_delete _ _ _ _ n Hei) in K2. lia.
      + intros B. destruct (Hb B) as [K|[[_ K]|K]].
        * exfalso. apply (K i x); [now left|assumption|assumption].
        * left. intros j y Hjl' Hy Hy'. rewrite Hj in Hy by auto. assert (i = j) as E by (apply (K i j x y); [now left|now right|assumption..]). subst. contradiction.
        * right. right. intros j H. rewrite Hjn by auto. apply K. now right.
      + split; [assumption|]. split; [eapply sb_trans; eassumption|eapply same_shape_trans; eassumption].
    - set (r1 := set_inputs <[i := with_in_index (length live) x]> s.1) in *.
      assert (E_td r1 = E_td s.1) as HE1 by (now apply E_td_reindex).
      assert (forall j, j <> i -> inputs r1 !! j = inputs s.1 !! j) as Hj by (intros j Hj; unfold r1; simpl; apply lookup_insert_ne; auto).
      assert (forall j, j <> i -> input_node r1 j = input_node s.1 j) as Hjn by (intros j Hj'; unfold input_node; now rewrite Hj).
      assert (forall j, j ∈ l -> j <> i) as Hjl by (intros j H ->; contradiction).
      destruct (IH (live ++ [i]) (r1, s.2) s' live') as (A1 & A2 & A3); cbn [fst snd]; auto.
      + now apply Core_reindex.
      + intros j H. unfold is_input. rewrite Hj by auto. apply Hl. now right.
      + now rewrite HE1.
      + intros j n E H. rewrite Hjn in E by auto. rewrite HE1. apply (Hd j n E). now right.
      + intros B. rewrite HE1. destruct (Hb B) as [K|[[K1 K2]|K]].
        * left. intros j y H Hy. rewrite Hj in Hy by auto. apply (K j y); [now right|assumption].
        * right. left. split.
          -- intros j n H E. rewrite Hjn in E by auto. apply (K1 j n); [now right|assumption].
          -- intros j k y z H1 H2 Hy Hz. rewrite Hj in Hy, Hz by auto. apply (K2 j k y z); [now right|now right|assumption..].
        * right. right. intros j H. rewrite Hjn by auto. apply K. now right.
      + split; [assumption|]. split; [assumption|]. eapply same_shape_trans; [apply same_shape_inputs|exact A3].
  Qed.

  Lemma td_divert i o (s s' : region * tracker) : Inv s.1 -> is_input s.1 i -> TDI b s.1 s.2 -> divert_to td_obs i o s = Ok s' ->
    TDI b s'.1 s'.2 /\ keeps s.1 s.2 s'.1 s'.2.
  Proof.
    intros HI Hi [HT HB] HE. destruct (divert_effect td_obs i o s s' HI Hi HE) as (HI' & HS & [->|(o0 & f & f' & w & Ht & Hf & HE' & H1 & H2 & Hw & _)]); [split; [split; assumption|apply keeps_refl]|].
    destruct (td_input_change b s.1 s'.1 s.2 i o0 o f f' w (is_node s.1) (v_i _ HI) (fun n => ss_ninputs _ _ n HS) HT Hf HE' H1 H2 Hw) as [K1 K2]. rewrite <- Ht in K1, K2. split; [split|].
    - eapply TI_N; [exact K1|]. intros n. symmetry. now apply ss_is_node.
    - intros n Hn. apply K2 in Hn. apply (ss_is_node _ _ n HS). auto.
    - now apply ss_keeps.
  Qed.
  Lemma td_divert_users fuel o o' y' : forall (s s' : region * tracker) y, Inv s.1 -> TDI b s.1 s.2 -> o <> o' -> outputs s.1 !! o = Some y -> outputs s.1 !! o' = Some y' -> out_type y = out_type y' ->
    divert_users_loop td_obs fuel o o' s = Ok s' -> TDI b s'.1 s'.2 /\ keeps s.1 s.2 s'.1 s'.2.
  Proof.
    revert y'. induction fuel as [|fuel IH]; intros y' s s' y HI HT Hne Hy Hy' Hty HE; cbn [divert_users_loop] in HE; rewrite Hy in HE.
    - destruct (out_users y); [|discriminate]. injection HE as <-. split; [assumption|apply keeps_refl].
    - destruct (out_users y) as [|i l] eqn:Hu; [injection HE as <-; split; [assumption|apply keeps_refl]|].
      destruct (divert_to td_obs i o' s) as [s1|s1|] eqn:E1; [|discriminate|discriminate].
      assert (is_input s.1 i) as Hi. { destruct (e_users _ _ (k_e _ _ (v_core _ HI)) o y i Hy) as (x & Hx & _); [rewrite Hu; now left|now exists x]. }
      destruct (td_divert i o' s s1 HI Hi HT E1) as [HT1 K1]. destruct (divert_effect td_obs i o' s s1 HI Hi E1) as (HI1 & HS1 & _).
      destruct (ss_out_l _ _ _ _ HS1 Hy) as (y1 & Hy1 & F1). destruct (ss_out_l _ _ _ _ HS1 Hy') as (y1' & Hy1' & F1').
      apply shape_out_inv in F1 as (_ & _ & F1). apply shape_out_inv in F1' as (_ & _ & F1').
      destruct (IH y1' s1 s' y1 HI1 HT1 Hne Hy1 Hy1') as [HT2 K2]; [congruence|assumption|]. split; [assumption|]. eapply keeps_trans; eassumption.
  Qed.
  Lemma td_remove_node p nd (s s' : region * tracker) : Inv s.1 -> nodes s.1 !! p = Some nd -> nd_succ nd = 0 -> TDI b s.1 s.2 -> remove_node td_obs p s = Some s' ->
    TDI b s'.1 s'.2 /\ keeps s.1 s.2 s'.1 s'.2.
  Proof.
    intros HI Hp Hz HT HE. destruct (destroy_effect td_obs p nd s HI Hp Hz) as (s1 & E & HI' & Ht & Hn & Hsh & Hid & _ & H1 & H2 & H3). rewrite E in HE. injection HE as ->.
    destruct (td_node_destroy b s.1 s'.1 s.2 p (v_i _ HI) HT Hn H1 H2 H3) as [K1 K2]. rewrite <- Ht in K1, K2. split; [assumption|]. split; [lia|].
    intros n nd' Hn' _. assert (n <> p) as D. { intros ->. assert (is_node s'.1 p) as Q by now exists nd'. apply Hn in Q. tauto. }
    specialize (Hsh n D). rewrite Hn' in Hsh. destruct (nodes s.1 !! n) as [nd0|]; [|discriminate]. exists nd0. simpl in Hsh. injection Hsh as E1 _ _. split; [reflexivity|]. split; [congruence|]. now rewrite K2.
  Qed.
  Lemma td_prune_loop fuel : forall s s' : region * tracker, Inv s.1 -> TDI b s.1 s.2 -> prune_loop td_obs fuel s = Some s' -> TDI b s'.1 s'.2 /\ keeps s.1 s.2 s'.1 s'.2.
  Proof.
    induction fuel as [|fuel IH]; intros s s' HI HT HE; cbn [prune_loop] in HE.
    - destruct (il_elems (bottom s.1)); [|discriminate]. injection HE as <-. split; [assumption|apply keeps_refl].
    - destruct (il_elems (bottom s.1)) as [|p l] eqn:Eb; [injection HE as <-; split; [assumption|apply keeps_refl]|].
      assert (p ∈ il_elems (bottom s.1)) as H by (rewrite Eb; now left). apply (b_iff _ (k_b _ _ (v_core _ HI))) in H as (nd & Hp & Hz).
      destruct (remove_node td_obs p s) as [s1|] eqn:E1; [|discriminate]. cbn in HE.
      destruct (td_remove_node p nd s s1 HI Hp Hz HT E1) as [HT1 K1]. destruct (destroy_effect td_obs p nd s HI Hp Hz) as (s2 & E2 & HI2 & _). assert (s2 = s1) as -> by congruence.
      destruct (IH s1 s' HI2 HT1 HE) as [HT2 K2]. split; [assumption|]. eapply keeps_trans; eassumption.
  Qed.

  Lemma td_create (s s' : region * tracker) p ins : Inv s.1 -> Inv s'.1 -> TDI b s.1 s.2 -> nodes s.1 !! p = None -> (forall i, i ∈ ins -> inputs s.1 !! i = None) ->
    (exists nd, nodes s'.1 !! p = Some nd /\ nd_inputs nd = ins /\ nd_id nd = next_id s.1 /\ forall o, o ∈ nd_outputs nd -> outputs s.1 !! o = None /\ exists y, outputs s'.1 !! o = Some y /\ out_users y = []) ->
    (forall n, n <> p -> shape_node <$> nodes s'.1 !! n = shape_node <$> nodes s.1 !! n) ->
    (forall i, i ∉ ins -> inputs s'.1 !! i = inputs s.1 !! i) ->
    (forall o, is_output s.1 o -> shape_out <$> outputs s'.1 !! o = shape_out <$> outputs s.1 !! o) ->
    next_id s'.1 = S (next_id s.1) -> s'.2 = td_obs (ENodeCreate p) s'.1 s.2 -> TDI b s'.1 s'.2 /\ keeps s.1 s.2 s'.1 s'.2.
  Proof.
    intros HI HI' HT Hp Hfresh (nd & Hp' & Hins & Hnid & Hno) Hn Hin Ho Hid Ht.
    destruct (create_effect s s' p ins HI HI' Hp) as (H1 & H2 & H3 & H4 & H5); auto; [eauto|].
    destruct (td_node_create b s.1 s'.1 s.2 p (v_i _ HI) (v_i _ HI') HT Hp H1 H2) as [K1 K2]; auto; [intros i H; apply Hfresh; congruence|]. rewrite <- Ht in K1, K2.
    split; [assumption|]. split; [lia|]. intros n nd' Hn' Hlt. assert (n <> p) as D. { intros ->. assert (nd' = nd) as -> by congruence. lia. }
    specialize (Hn n D). rewrite Hn' in Hn. destruct (nodes s.1 !! n) as [nd0|]; [|discriminate]. exists nd0. simpl in Hn. injection Hn as E1 _ _. split; [reflexivity|]. split; [congruence|]. now rewrite K2.
  Qed.

  Lemma same_graph_E r r' : same_graph r r' -> E_td r' = E_td r.
  Proof. intros H. apply E_td_same; [intros i; now rewrite (sg_in _ _ H)|]. intros i x o _ _. apply output_node_shape, H. Qed.

  Lemma td_exec c (s s' : region * tracker) : Inv s.1 -> legal c s.1 -> TDI b s.1 s.2 -> (b = true -> one_at_a_time c s.1) -> exec td_obs c s = Ok s' ->
    TDI b s'.1 s'.2 /\ keeps s.1 s.2 s'.1 s'.2.
  Proof.
    intros HI HL HT Hg HE. destruct (unheard c) eqn:Hu.
    { destruct (unheard_effect td_obs c s s' HI HL Hu HE) as (H1 & H2 & H3 & H4). rewrite H2. split; [|now apply keeps_same; [| |apply sb_refl]].
      assert (forall n, is_node s'.1 n <-> is_node s.1 n) as Hn.
      { intros n. specialize (H3 n). unfold is_node. destruct (nodes s'.1 !! n), (nodes s.1 !! n); try discriminate; split; intros [? ?]; try discriminate; eexists; reflexivity. }
      destruct HT as [HT HB]. split; [rewrite H1; eapply TI_N; [exact HT|]; intros n; symmetry; apply Hn|]. intros n K. apply Hn. auto. }
    destruct c; try discriminate; cbn [exec] in HE.
    - pose proof (create_simple_ok td_obs p argTypes operands ins outs s HI HL) as K. rewrite HE in K. destruct K as (HI' & _ & _ & (nd & Hp' & Hi & Ho & Hnid) & _ & Hout & Hn & Hso & Hin & _ & _ & Hid & Ht).
      destruct HL as (Hp & _ & _ & Hf & _ & Hfo). rewrite Forall_forall in Hf, Hfo.
      apply (td_create s s' p ins); auto.
      + exists nd. split; [assumption|]. split; [assumption|]. split; [assumption|]. intros o H. rewrite Ho in H. split; [apply Hfo, H|]. apply elem_of_list_fmap in H as ([o1 ty] & -> & H).
        apply elem_of_list_lookup in H as [k H]. eexists. split; [exact (Hout k o1 ty H)|reflexivity].
      + intros o [y Hy]. apply Hso. intros H. apply Hfo in H. unfold fresh_output in H. congruence.
    - pose proof (create_structural_ok td_obs p nsubregions s HI HL) as K. rewrite HE in K. destruct K as (HI' & _ & Hn & Hin & Ho & _ & _ & Hid & Ht).
      apply (td_create s s' p []); auto.
      + intros i H. inversion H.
      + eexists. rewrite Hn, lookup_insert. split; [reflexivity|]. split; [reflexivity|]. split; [reflexivity|]. intros o H. inversion H.
      + intros n D. now rewrite Hn, lookup_insert_ne by auto.
      + intros i _. now rewrite Hin.
      + intros o _. now rewrite Ho.
    - destruct HL as [[nd Hp] Hi]. pose proof (add_input_ok td_obs p i o ty true s nd HI Hp Hi) as K. rewrite HE in K. destruct K as (HI' & _ & (nd' & Hp' & _ & _ & Hnid) & Hn & Ho & Hin & _ & _ & Hid & _ & Ht).
      destruct (new_input_effect s s' i _ HI Hi Hin Ho) as [H1 H2]. simpl in H2. destruct HT as [HT HB].
      destruct (td_input_create b s.1 s'.1 s.2 i _ _ (is_node s.1) (v_i _ HI') HT H1 H2) as [K1 K2]; [intros n E; injection E as <-; now exists nd|]. rewrite <- Ht in K1, K2.
      assert (forall n, nd_id <$> nodes s'.1 !! n = nd_id <$> nodes s.1 !! n) as Hids.
      { intros n. destruct (decide (n = p)) as [->|D]; [rewrite Hp, Hp'; simpl; congruence|now apply shape_id, Hn]. }
      assert (forall n, is_node s'.1 n <-> is_node s.1 n) as Hnn.
      { intros n. specialize (Hids n). unfold is_node. destruct (nodes s'.1 !! n), (nodes s.1 !! n); try discriminate; split; intros [? ?]; try discriminate; eexists; reflexivity. }
      split; [split|apply keeps_same; auto].
      + eapply TI_N; [exact K1|]. intros n. symmetry. apply Hnn.
      + intros n H. apply K2 in H. apply Hnn. auto.
    - destruct HL as (nd & Hp & Hne). unfold remove_inputs in HE. destruct (decide (indices = [])) as [D|D]; [cbn in HE; injection HE as <-; split; [assumption|apply keeps_refl]|].
      rewrite Hp in HE. cbn [mbind option_bind] in HE. destruct (remove_inputs_loop td_obs indices (nd_inputs nd) [] s) as [[s1 live]|] eqn:El; [|discriminate]. cbn [mbind option_bind] in HE.
      destruct HT as [HT HB].
      destruct (td_remove_loop indices (nd_inputs nd) [] s s1 live (v_core _ HI)) as (K1 & K2 & K3); auto.
      + intros i H. apply (node_inputs_ok s.1 p nd (v_i _ HI) Hp i H).
      + eapply OwnI_nodup; [apply HI|exact Hp].
      + intros i n E _. apply input_node_some in E as (nd' & H & _); [|apply HI]. split; [now exists nd'|]. rewrite deg_td by apply HI. lia.
      + intros B. right. left. split; [intros i n _ _; now rewrite deg_td by apply HI|]. intros i j x y H1 H2 Hx Hy Hix Hjy.
        apply elem_of_list_lookup in H1 as [k1 H1]. apply elem_of_list_lookup in H2 as [k2 H2].
        destruct (proj1 (i_node _ (v_i _ HI) p k1 i)) as (x' & Hx' & _ & E1); [eauto|]. destruct (proj1 (i_node _ (v_i _ HI) p k2 j)) as (y' & Hy' & _ & E2); [eauto|].
        assert (k1 = k2) as E; [|subst k2; congruence]. apply (Hg B nd k1 k2 Hp); [congruence|congruence|eapply lookup_lt_Some; eassumption..].
      + destruct (nodes s1.1 !! p) as [nd1|] eqn:Hp1; [|discriminate]. cbn [mbind option_bind] in HE.
        assert (exists r, s' = (r, s1.2) /\ inputs r = inputs s1.1 /\ outputs r = outputs s1.1 /\ nodes r = <[p := with_inputs live nd1]> (nodes s1.1) /\ next_id r = next_id s1.1) as (r & -> & R1 & R2 & R3 & R4).
        { destruct (decide (live = [])).
          - unfold lift, on_top_added in HE. cbn in HE. destruct (il_push p (top s1.1)) as [l|]; [|discriminate]. cbn in HE. injection HE as <-. eexists. split; [reflexivity|]. auto.
          - cbn in HE. injection HE as <-. eexists. split; [reflexivity|]. auto. }
        cbn [fst snd]. assert (E_td r = E_td s1.1) as HEr. { apply E_td_same; [intros i; now rewrite R1|]. intros i x o _ _. unfold output_node. now rewrite R2. }
        assert (forall n, nd_id <$> nodes r !! n = nd_id <$> nodes s1.1 !! n) as Hids.
        { intros n. rewrite R3. destruct (decide (n = p)) as [->|Dn]; [rewrite lookup_insert, Hp1; reflexivity|now rewrite lookup_insert_ne by auto]. }
        assert (forall n, is_node r n <-> is_node s.1 n) as Hnn.
        { intros n. rewrite <- (ss_is_node _ _ n K3). specialize (Hids n). unfold is_node. destruct (nodes r !! n), (nodes s1.1 !! n); try discriminate; split; intros [? ?]; try discriminate; eexists; reflexivity. }
        split; [split|].
        * rewrite HEr. eapply TI_N; [exact K1|]. intros n. rewrite Hnn. now apply ss_is_node.
        * intros n H. apply K2 in H. apply Hnn. auto.
        * eapply keeps_trans; [exact (ss_keeps _ _ _ _ K3 K2)|]. apply keeps_same; [assumption|assumption|apply sb_refl].
    - pose proof (add_result_ok td_obs i o ty s HI HL) as K. rewrite HE in K. destruct K as (HI' & _ & Hin & _ & Hn & Ho & _ & _ & Hid & Ht).
      destruct (new_input_effect s s' i _ HI HL Hin (fun o' => eq_sym (Ho o'))) as [H1 H2]. simpl in H2. destruct HT as [HT HB].
      destruct (td_input_create b s.1 s'.1 s.2 i _ _ (is_node s.1) (v_i _ HI') HT H1 H2) as [K1 K2]; [intros n E; discriminate|]. rewrite <- Ht in K1, K2.
      assert (forall n, is_node s'.1 n <-> is_node s.1 n) as Hnn by (intros n; apply is_node_shape; symmetry; apply Hn).
      split; [split|apply keeps_same; auto].
      + eapply TI_N; [exact K1|]. intros n. symmetry. apply Hnn.
      + intros n H. apply K2 in H. apply Hnn. auto.
      + intros n. apply shape_id. symmetry. apply Hn.
    - unfold remove_results in HE. destruct (decide (indices = [])) as [D|D]; [cbn in HE; injection HE as <-; split; [assumption|apply keeps_refl]|].
      destruct (remove_inputs_loop td_obs indices (results s.1) [] s) as [[s1 live]|] eqn:El; [|discriminate]. cbn in HE. injection HE as <-. cbn [fst snd].
      destruct HT as [HT HB]. assert (forall i, i ∈ results s.1 -> exists x, inputs s.1 !! i = Some x /\ in_owner x = ORegion) as Hres.
      { intros i H. apply elem_of_list_lookup in H as [k H]. apply (i_res _ (v_i _ HI)) in H as (x & Hx & E & _). eauto. }
      assert (forall i, i ∈ results s.1 -> input_node s.1 i = None) as Hres' by (intros i H; destruct (Hres i H) as (x & Hx & E); unfold input_node; rewrite Hx; simpl; now rewrite E).
      destruct (td_remove_loop indices (results s.1) [] s s1 live (v_core _ HI)) as (K1 & K2 & K3); auto.
      + intros i H. destruct (Hres i H) as (x & Hx & _). now exists x.
      + apply NoDup_alt. intros k k' i H1 H2. apply (i_res _ (v_i _ HI)) in H1 as (x & Hx & _ & E1). apply (i_res _ (v_i _ HI)) in H2 as (y & Hy & _ & E2). congruence.
      + intros i n E H. rewrite Hres' in E by assumption. discriminate.
      + split; [split|].
        * eapply TI_N; [exact K1|]. intros n. reflexivity.
        * intros n H. apply K2 in H. apply (ss_is_node _ _ n K3). auto.
        * eapply keeps_trans; [exact (ss_keeps _ _ _ _ K3 K2)|]. apply keeps_same; [reflexivity|reflexivity|apply sb_refl].
    - apply (td_divert i o); assumption.
    - unfold divert_users in HE. destruct (decide (o = o')) as [D|D]; [injection HE as <-; split; [assumption|apply keeps_refl]|].
      pose proof (divert_users_ok td_obs o o' s HI HL) as K. unfold divert_users in K. rewrite decide_False in K by assumption. destruct HL as [y Hy]. rewrite Hy in HE, K. rewrite HE in K.
      destruct K as (_ & _ & [[K _]|[[K ->]|(_ & [y' Hy'] & _)]]); [contradiction|split; [assumption|apply keeps_refl]|].
      destruct (out_users y) as [|i l] eqn:Hus.
      { cbn [length divert_users_loop] in HE. rewrite Hy, Hus in HE. injection HE as <-. split; [assumption|apply keeps_refl]. }
      assert (out_type y = out_type y') as Hty.
      { cbn [length divert_users_loop] in HE. rewrite Hy, Hus in HE. destruct (divert_to td_obs i o' s) as [s1| |] eqn:E1; [|discriminate|discriminate].
        destruct (e_users _ _ (k_e _ _ (v_core _ HI)) o y i Hy) as (x & Hx & Hox); [rewrite Hus; now left|].
        destruct (e_in _ _ (k_e _ _ (v_core _ HI)) i x Hx ltac:(discriminate)) as (o1 & y1 & Ho1 & Hy1 & _ & Ht1). assert (o1 = o) as -> by congruence. assert (y1 = y) as -> by congruence.
        unfold divert_to in E1. rewrite Hx, Hox, decide_False in E1 by assumption. destruct (check_types o' (in_type x) s.1) eqn:Ec; [|discriminate].
        apply check_types_true in Ec as (y2 & Hy2 & Ec). congruence. }
      eapply td_divert_users; [exact HI|exact HT|exact D|exact Hy|exact Hy'|exact Hty|exact HE].
    - destruct HL as (nd & Hp & Hz). destruct (remove_node td_obs p s) as [s1|] eqn:E1; [|discriminate]. cbn in HE. injection HE as ->. exact (td_remove_node p nd s s' HI Hp Hz HT E1).
    - unfold prune in HE. destruct (prune_loop td_obs (size (nodes s.1)) s) as [s1|] eqn:E1; [|discriminate]. cbn in HE. injection HE as ->. eapply td_prune_loop; [exact HI|exact HT|exact E1].
  Qed.

  Lemma td_exec_throws c (s s' : region * tracker) : Inv s.1 -> legal c s.1 -> TDI b s.1 s.2 -> exec td_obs c s = Throws s' ->
    TDI b s'.1 s'.2 /\ (forall n, nd_id <$> nodes s'.1 !! n = nd_id <$> nodes s.1 !! n) /\ s'.2 = s.2.
  Proof.
    intros HI HL [HT HB] HE. pose proof (exec_ok td_obs c s HI HL) as K. rewrite HE in K. destruct K as (_ & HS & Ht). rewrite Ht.
    assert (forall n, is_node s'.1 n <-> is_node s.1 n) as Hnn by (intros n; apply is_node_shape, HS).
    split; [split|split; [|reflexivity]].
    - rewrite (same_graph_E _ _ HS). eapply TI_N; [exact HT|]. intros n. symmetry. apply Hnn.
    - intros n H. apply Hnn. auto.
    - intros n. apply shape_id, HS.
  Qed.
End Cmd.
