(** Every node that is left has an output the results of the module need. *)
From stdpp Require Import base list list_numbers fin_sets gmap.
From Verif.Rvsdg Require Import Model Spec Sem Wf WfFacts ListFacts.
From Verif.Dne Require Import Model Spec ProofsMark Rel ProofsList ProofsNode ProofsIds ProofsShrink.

Lemma nodes_in_unfold m id k ins outs subs : m ∈ nodes_in (Node id k ins outs subs) <-> m = Node id k ins outs subs \/ exists r, r ∈ subs /\ m ∈ nodes_of r.
Proof. cbn [nodes_in]. rewrite elem_of_cons, elem_of_mjoin_map. done. Qed.
Lemma nodes_of_unfold m r : m ∈ nodes_of r <-> exists n, n ∈ rnodes r /\ m ∈ nodes_in n.
Proof. destruct r. cbn [nodes_of rnodes]. apply elem_of_mjoin_map. Qed.
Lemma nodes_in_dins s n m : m ∈ nodes_in (dins s n) -> exists m', m' ∈ nodes_in n /\ nouts m = nouts m'.
Proof.
  destruct n as [id k ins outs subs]. cbn [dins]. intros [->|(r & Hr & Hm)]%nodes_in_unfold.
  - exists (Node id k ins outs subs). split; [|done]. cbn [nodes_in]. left.
  - exists m. split; [|done]. apply nodes_in_unfold. eauto.
Qed.

Section Alive.
  Context (t : region) (c : ctx) (Hids : NoDup (region_ids t)) (Hs : snd_ctx t c).
  Definition useful (m : node) : Prop := exists o, o ∈ nouts m /\ needed t o.
  Definition within (n : node) : Prop := (forall d, d ∈ ndefs n -> d ∈ defs t) /\ (forall m, m ∈ nodes_in n -> m ∈ nodes_of t) /\ wf_node n.
  Definition withinr (r : region) : Prop := (forall d, d ∈ rdefs r -> d ∈ defs t) /\ (forall m, m ∈ nodes_of r -> m ∈ nodes_of t) /\ wf_region r.

  Lemma within_sub id k ins outs subs r : within (Node id k ins outs subs) -> r ∈ subs -> withinr r.
  Proof using.
    clear. intros (H1 & H2 & H3) Hr. split; [|split].
    - intros d Hd. apply H1, ndefs_unfold. eauto.
    - intros m Hm. apply H2, nodes_in_unfold. eauto.
    - apply wf_node_unfold in H3 as [_ H3]. rewrite Forall_forall in H3. by apply H3.
  Qed.
  Lemma within_node r n : withinr r -> n ∈ rnodes r -> within n.
  Proof using.
    clear. destruct r as [args res ns]. cbn [rnodes]. intros (H1 & H2 & [H3 _]) Hn. split; [|split].
    - intros d Hd. apply H1, rdefs_unfold. eauto.
    - intros m Hm. apply H2, nodes_of_unfold. eauto.
    - apply wf_list_Forall in H3. rewrite Forall_forall in H3. by apply H3.
  Qed.
  Lemma alive_needed o : alive_out c o = true -> needed t o.
  Proof using Hs. clear Hids. unfold alive_out. intros H%bool_decide_eq_true. by apply Hs. Qed.
  Lemma alive_useful n outs' : within n -> alive_node c n = true -> (forall o, o ∈ nouts n -> alive_out c o = true -> o ∈ outs') -> (structural (nkind n) = false -> outs' = nouts n) ->
    exists o, o ∈ outs' /\ needed t o.
  Proof using Hids Hs.
    intros (_ & Hn & _) Ha Hk Hk2. destruct (structural (nkind n)) eqn:E.
    - assert (Ha' : existsb (alive_out c) (nouts n) = true) by (unfold alive_node in Ha; destruct (nkind n); done).
      apply existsb_exists in Ha' as (o & Ho%elem_of_list_In & Hal). exists o. split; [by apply Hk | by apply alive_needed].
    - rewrite (Hk2 eq_refl). assert (Ha' : nid n ∈ cnodes c) by (unfold alive_node in Ha; destruct (nkind n); try done; by apply bool_decide_eq_true in Ha).
      destruct Hs as [Hs1 _]. destruct (Hs1 _ Ha') as (o & l & op & k & ins & Hd & Hno & _). apply simple_node_defs in Hd as (m & Hm & H1 & _ & _ & H4).
      assert (m = n) as -> by (eapply node_unique; eauto; apply Hn; destruct n; cbn [nodes_in]; left).
      exists o. split; [by eapply elem_of_list_lookup_2 | done].
  Qed.

  Lemma prune_useful (res : list nat) ns : Forall (needed t) res ->
    Forall (fun n => exists op, nkind n = Simple op) ns -> Forall (fun n => forall d, d ∈ ndefs n -> d ∈ defs t) ns ->
    Forall useful (prune_list res ns) /\ Forall (fun n => Forall (needed t) (nins n)) (prune_list res ns).
  Proof using.
    clear. intros Hr. induction ns as [|n ns IH]; [intros; split; constructor|]. intros [Hk Hks]%Forall_cons [Hd Hds]%Forall_cons. destruct (IH Hks Hds) as [IH1 IH2]. cbn [prune_list].
    destruct (existsb _ _) eqn:E; [|done]. apply existsb_exists in E as (o & Ho%elem_of_list_In & Hu). apply is_used_iff in Hu.
    assert (Hno : needed t o).
    { rewrite Forall_forall in Hr. rewrite Forall_forall in IH2. destruct Hu as [Hu|(n' & Hn' & Hu)]; [auto|]. specialize (IH2 _ Hn'). rewrite Forall_forall in IH2. auto. }
    split; (constructor; [|done]); [exists o; done|]. destruct Hk as [op Hk]. apply Forall_forall. intros x Hx.
    apply elem_of_list_lookup in Ho as [i Hi]. pose proof (out_in_defs t n i o Hd Hi) as Hdo. rewrite Hk in Hdo. cbn [out_view] in Hdo.
    eapply needed_use; [exact Hno | exact Hdo |]. exact Hx.
  Qed.

  Lemma sweep_useful : (forall n, within n -> alive_node c n = true -> forall n1, sweep_node c n = Some n1 -> forall m, m ∈ nodes_in n1 -> useful m) /\
    (forall r, withinr r -> forall res r', sweep_region c r res = Some r' -> forall m, m ∈ nodes_of r' -> useful m).
  Proof using Hids Hs.
    apply tree_ind.
    - intros id k ins outs subs IH Hw Ha n1. pose proof (alive_useful (Node id k ins outs subs)) as Hau. cbn [nouts nkind] in Hau. destruct k; cbn [sweep_node].
      + intros [= <-] m [->|(r & Hr & Hm)]%nodes_in_unfold; [eapply Hau; eauto|]. destruct Hw as (_ & _ & [Hw _]%wf_node_unfold). cbn [shape] in Hw. subst subs. by apply elem_of_nil in Hr.
      + intros [= <-] m [->|(r & Hr & Hm)]%nodes_in_unfold; [eapply Hau; eauto|]. destruct Hw as (_ & _ & [Hw _]%wf_node_unfold). cbn [shape] in Hw. destruct Hw as [-> _]. by apply elem_of_nil in Hr.
      + intros (subs' & H1 & H)%bind_Some. apply bind_Some in H as (subs'' & H2 & [= <-]). intros m [->|(r2 & Hr2 & Hm)]%nodes_in_unfold.
        * eapply Hau; [done | done | | done]. intros o Ho Hal. cbn [nouts] in *. apply elem_of_list_lookup in Ho as [i Hi]. apply drop_at_elem. exists i. split; [done|]. by rewrite (nth_elem _ _ _ _ Hi), Hal.
        * apply mapM_Forall2 in H1, H2. apply elem_of_list_lookup in Hr2 as [i Hi]. destruct (Forall2_lookup_r _ _ _ _ _ H2 Hi) as (r1 & Hr1 & Hra). destruct (Forall2_lookup_r _ _ _ _ _ H1 Hr1) as (r & Hr & Hsw).
          apply remove_arguments_eq in Hra as ->. apply elem_of_list_lookup_2 in Hr. rewrite Forall_forall in IH. eapply (IH r Hr); [by eapply within_sub | exact Hsw|].
          apply nodes_of_unfold in Hm. by apply nodes_of_unfold.
      + destruct subs as [|r [|]]; try done. intros (r1 & H1 & H)%bind_Some. apply bind_Some in H as (r2 & H2 & [= <-]). intros m [->|(r2' & Hr2 & Hm)]%nodes_in_unfold.
        * eapply Hau; [done | done | | done]. intros o Ho Hal. cbn [nouts] in *. apply elem_of_list_lookup in Ho as [i Hi]. apply drop_at_elem. exists i. split; [done|]. rewrite (nth_elem _ _ _ _ Hi), Hal. apply andb_false_r.
        * apply elem_of_list_singleton in Hr2 as ->. apply remove_arguments_eq in H2 as ->. rewrite Forall_singleton in IH. eapply IH; [eapply within_sub; [exact Hw | left] | exact H1|].
          apply nodes_of_unfold in Hm. apply nodes_of_unfold. by destruct r1.
      + destruct subs as [|r [|]]; try done. intros (r1 & H1 & H)%bind_Some. apply bind_Some in H as ([ins' r2] & H2 & [= <-]). intros m [->|(r2' & Hr2 & Hm)]%nodes_in_unfold; [eapply Hau; eauto|].
        apply elem_of_list_singleton in Hr2 as ->. apply prune_inputs_eq in H2 as [p ->]. rewrite Forall_singleton in IH. eapply IH; [eapply within_sub; [exact Hw | left] | exact H1|].
        apply nodes_of_unfold in Hm. by apply nodes_of_unfold.
      + destruct subs as [|r [|]]; try done. intros (r1 & H1 & H)%bind_Some. apply bind_Some in H as ([ins' r2] & H2 & H). apply bind_Some in H as (r3 & H3 & [= <-]). intros m [->|(r2' & Hr2 & Hm)]%nodes_in_unfold.
        * eapply Hau; [done | done | | done]. intros o Ho Hal. cbn [nouts] in *. apply elem_of_list_lookup in Ho as [i Hi]. apply drop_at_elem. exists i. split; [done|]. by rewrite (nth_elem _ _ _ _ Hi), Hal.
        * apply elem_of_list_singleton in Hr2 as ->. apply remove_arguments_eq in H3 as ->. apply prune_inputs_eq in H2 as [p ->]. rewrite Forall_singleton in IH. eapply IH; [eapply within_sub; [exact Hw | left] | exact H1|].
          apply nodes_of_unfold in Hm. by apply nodes_of_unfold.
      + destruct subs as [|[args res ns] [|]]; try done. intros ([ins' r2] & H2 & [= <-])%bind_Some m [->|(r2' & Hr2 & Hm)]%nodes_in_unfold; [eapply Hau; eauto|].
        apply elem_of_list_singleton in Hr2 as ->. apply prune_inputs_eq in H2 as [p ->]. cbn [rargs rres rnodes] in Hm.
        destruct Hw as (Hd & _ & [Hsh Hwr]%wf_node_unfold). cbn [shape] in Hsh. destruct Hsh as (r0 & [= <-] & _ & Hl1 & Hl2 & Hkinds). cbn [rnodes rres] in *.
        assert (Hres : Forall (needed t) res).
        { unfold alive_node in Ha. cbn [nkind nouts] in Ha. apply existsb_exists in Ha as (o & Ho%elem_of_list_In & Hal). apply alive_needed in Hal. apply elem_of_list_lookup in Ho as [i Hi].
          pose proof (out_in_defs t _ i o Hd Hi) as Hdo. apply Forall_forall. intros x Hx. eapply needed_use; [exact Hal | exact Hdo|]. exact Hx. }
        destruct (prune_useful res ns Hres Hkinds) as [Hu _].
        { apply Forall_forall. intros n Hn d Hdd. apply Hd, ndefs_unfold. right. eexists. split; [left|]. right. apply rdefs_unfold. eauto. }
        apply nodes_of_unfold in Hm as (n & Hn & Hm). cbn [rnodes] in Hn. rewrite Forall_forall in Hu. specialize (Hu n Hn).
        assert (m = n) as ->; [|done]. pose proof (prune_sublist res ns) as Hsub. apply sublist_submseteq in Hsub. pose proof (elem_of_submseteq _ _ _ Hn Hsub) as Hn'.
        rewrite Forall_singleton in Hwr. destruct Hwr as [Hwl _]. apply wf_list_Forall in Hwl. rewrite Forall_forall in Hwl, Hkinds. specialize (Hwl _ Hn'). destruct (Hkinds _ Hn') as [op Hop].
        destruct n as [id' k' ins2 outs2 subs2]. cbn [nkind] in Hop. subst k'. apply wf_node_unfold in Hwl as [-> _]. apply nodes_in_unfold in Hm as [->|(? & ?%elem_of_nil & _)]; done.
    - intros args res0 ns IH Hw res r'. rewrite sweep_region_unfold. intros (st & H & [= <-])%bind_Some m Hm. apply sweep_list_kept in H. apply nodes_of_unfold in Hm as (n' & Hn' & Hm). cbn [rnodes] in Hn'.
      assert (Hx : exists n n1 s, n ∈ ns /\ alive_node c n = true /\ sweep_node c n = Some n1 /\ n' = dins s n1).
      { clear -H Hn'. induction H as [|n ns ns' H IH|n n1 s ns ns' Ha Hr H IH]; [by apply elem_of_nil in Hn'| |].
        - destruct (IH Hn') as (n0 & n1 & s & ? & ?). exists n0, n1, s. split; [by right | done].
        - apply elem_of_cons in Hn' as [->|Hn']; [exists n, n1, s; split; [left | done]|]. destruct (IH Hn') as (n0 & n2 & s2 & ? & ?). exists n0, n2, s2. split; [by right | done]. }
      destruct Hx as (n & n1 & s & Hn & Ha & Hsw & ->). apply nodes_in_dins in Hm as (m' & Hm' & E). rewrite Forall_forall in IH.
      destruct (IH n Hn (within_node _ _ Hw Hn) Ha _ Hsw _ Hm') as (o & Ho & Hno). exists o. rewrite E. done.
  Qed.
End Alive.
