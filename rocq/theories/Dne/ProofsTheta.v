(** Theta nodes. *)
From stdpp Require Import base list list_numbers fin_sets gmap relations.
From Verif.Rvsdg Require Import Model Spec Sem Wf WfFacts ListFacts.
From Verif.Dne Require Import Model Spec ProofsMark Rel ProofsList ProofsNode ProofsGamma.

Section Node.
  Context (t : region) (c : ctx).
  Context (Hnd : NoDup (defs t).*1) (Hcl : closed t c).
  Context (Hkeys : forall o w x, (o, w) ∈ defs t -> x ∈ refs w -> x ∈ (defs t).*1).
  Local Notation liveo := (liveo t c).
  Local Notation byp := (byp t c).
  Local Notation rsl := (rsl t c).
  Local Notation vrel := (vrel t c).

  Lemma theta_step id ins outs subs : Forall (NQ t c) subs -> NP t c (Node id Theta ins outs subs).
  Proof using Hnd Hcl Hkeys.
    intros IH Hw Hd Hn Hz Ha. pose proof Hw as [(r & Esubs & Hla & Hlo & Hlr) Hwr]%wf_node_unfold. subst subs.
    rewrite Forall_singleton in IH, Hwr.
    destruct (sub_pre t c Hnd id Theta ins outs [r] r Hw Hd Hn Hz ltac:(left)) as (_ & Hd1 & Hn1 & Hav & Hb1 & Hz1). cbn [arg_view] in Hav.
    destruct (rres r) as [|pr posts] eqn:Eres; [discriminate|]. injection Hlr as Hlr.
    assert (Hout : forall i o, outs !! i = Some o -> (o, VTheta pr (nth i posts 0) (nth i ins 0) (zip (zip (rargs r) ins) posts)) ∈ defs t).
    { intros i o Hi. pose proof (out_in_defs t (Node id Theta ins outs [r]) i o Hd Hi) as H. cbn [nid nkind nins nouts nsubs out_view nth] in H. unfold loop_vars in H. rewrite Eres in H. exact H. }
    assert (Halive : forall o, liveo o -> o ∈ outs -> o ∈ couts c).
    { intros o Hl [i Hi]%elem_of_list_lookup. eapply live_couts; [done | by apply (Hout i) | done | done]. }
    rewrite sweep_theta_unfold. set (dead := fun i => negb (alive_out c (nth i (rargs r) 0)) && negb (alive_out c (nth i outs 0))). cbv zeta.
    rewrite Eres. change (take 1 (pr :: posts) ++ redirect dead (rargs r) (drop 1 (pr :: posts))) with (pr :: redirect dead (rargs r) posts).
    (* a kept loop variable has a live output *)
    assert (Hkeep : forall i o, outs !! i = Some o -> dead i = false -> o ∈ couts c).
    { intros i o Hi Hp. unfold dead in Hp. rewrite (nth_elem _ _ _ _ Hi) in Hp. apply andb_false_iff in Hp as [Hp|Hp]; apply negb_false_iff, bool_decide_eq_true in Hp; [|done].
      destruct (lookup_lt_is_Some_2 (rargs r) i) as [a Hai]. { rewrite Hla, Hlo. by eapply lookup_lt_Some. }
      rewrite (nth_elem _ _ _ _ Hai) in Hp. apply Halive; [|by eapply elem_of_list_lookup_2].
      eapply next_live; [done | done | done | by apply (Hav i a) | done | done|]. cbn [mark_next]. rewrite (nth_elem _ _ _ _ Hi). left. }
    assert (Hdarg : forall i a, rargs r !! i = Some a -> dead i = true -> ~ liveo a).
    { intros i a Hi Hp Hl. unfold dead in Hp. apply andb_true_iff in Hp as [Hp _]. rewrite (nth_elem _ _ _ _ Hi) in Hp. apply negb_true_iff, bool_decide_eq_false in Hp. apply Hp.
      eapply live_couts; [done | by apply (Hav i a) | done | done]. }
    assert (Hoi : forall {B} (l : list B) i x, length l = length outs -> l !! i = Some x -> exists o, outs !! i = Some o).
    { intros B l i x Hl Hx. apply lookup_lt_is_Some_2. rewrite <-Hl. by eapply lookup_lt_Some. }
    assert (Hins : forall i x, ins !! i = Some x -> dead i = false -> liveo x).
    { intros i x Hi Hp. destruct (Hoi _ ins i x Hlo Hi) as [o Ho]. eapply next_live; [done | done | done | by apply (Hout i o) | done | by eapply Hkeep|].
      cbn [mark_next]. rewrite (nth_elem _ _ _ _ Hi). right. right. left. }
    assert (Hposts : forall i x, posts !! i = Some x -> dead i = false -> liveo x).
    { intros i x Hi Hp. destruct (Hoi _ posts i x Hlr Hi) as [o Ho]. eapply next_live; [done | done | done | by apply (Hout i o) | done | by eapply Hkeep|].
      cbn [mark_next]. rewrite (nth_elem _ _ _ _ Hi). right. left. }
    assert (Hpr : liveo pr).
    { destruct (some_alive c id Theta ins outs [r] eq_refl Ha) as (j & o & Hj & Ho). eapply next_live; [done | done | done | by apply (Hout j o) | done | done|]. left. }
    pose proof (res_scope_own r Hwr) as Hsc. rewrite Eres in Hsc. apply Forall_cons in Hsc as [Hsc0 Hsc].
    destruct (IH Hwr Hd1 Hn1 Hb1 Hz1 (pr :: redirect dead (rargs r) posts) (rargs r)) as (ns' & s & He & H1 & H2 & H3 & H4 & _ & H6).
    { constructor; [done|]. apply Forall_forall. intros x [i Hi]%elem_of_list_lookup. apply redirect_lookup in Hi as (y & Hy & ->). destruct (dead i).
      - apply elem_of_app. left. apply nth_in. rewrite Hla, Hlo, <-Hlr. by eapply lookup_lt_Some.
      - rewrite Forall_forall in Hsc. apply Hsc. by eapply elem_of_list_lookup_2. }
    { constructor; [by left|]. apply Forall_forall. intros x [i Hi]%elem_of_list_lookup. apply redirect_lookup in Hi as (y & Hy & ->). destruct (dead i) eqn:Ed.
      - right. apply nth_in. rewrite Hla, Hlo, <-Hlr. by eapply lookup_lt_Some.
      - left. eauto. }
    { done. }
    rewrite He. cbn [mbind option_bind].
    assert (Erm : remove_results (fun i => (1 <=? i) && dead (i - 1)) (Region (rargs r) (s <$> pr :: redirect dead (rargs r) posts) ns') =
      Region (rargs r) (s pr :: (s <$> drop_at dead posts)) ns').
    { unfold remove_results. f_equal. rewrite fmap_cons. cbn [drop_at Nat.leb andb]. f_equal. rewrite <-(drop_at_redirect dead (rargs r) posts), <-drop_at_fmap.
      apply drop_at_ext. intros i _. replace (S i - 1) with i by lia. done. }
    rewrite Erm. clear Erm. apply Forall_cons in H1 as [Hrpr Hrposts]. specialize (Hrpr Hpr).
    assert (Hrp : forall i x, posts !! i = Some x -> dead i = false -> rsl x (s x)).
    { intros i x Hi Hp. rewrite Forall_forall in Hrposts. apply Hrposts; [|eauto]. apply (drop_at_subset dead). rewrite drop_at_redirect. apply drop_at_elem. eauto. }
    assert (Hresl : Forall liveo (s pr :: (s <$> drop_at dead posts))).
    { constructor; [destruct Hrpr as (_ & Hc & _); by eapply edges_live|]. apply Forall_fmap, Forall_forall. intros x Hx. apply drop_at_elem in Hx as (i & Hi & Hp). cbn.
      destruct (Hrp i x Hi Hp) as (? & Hc & _). by eapply edges_live. }
    assert (Hkl : forall x, liveo x -> x ∈ rargs r -> x ∈ drop_at dead (rargs r)).
    { intros x Hl Hx. eapply dead_args_shrink; [|exact Hl | done]. intros i Hi Hp. by eapply Hdarg. }
    rewrite remove_arguments_ok; [|intros i a Hi Hp; apply not_true_iff_false; rewrite is_used_iff; intros Hu; apply (Hdarg i a Hi Hp); destruct Hu as [Hu|(n' & Hn' & Hu)];
      [rewrite Forall_forall in Hresl; by apply Hresl | rewrite Forall_forall in H2; specialize (H2 n' Hn'); rewrite Forall_forall in H2; auto]].
    cbn [mbind option_bind]. eexists. split; [done|].
    split; [|split; [|split; [|split; [|split]]]]; cbn [nins nouts].
    - apply Forall_forall. intros x Hx. by eapply drop_at_subset.
    - apply Forall_forall. intros x Hx. apply drop_at_elem in Hx as (i & Hi & Hp). eauto.
    - apply wf_node_unfold. split.
      + eexists. split; [done|]. cbn [rargs rres length]. rewrite fmap_length. split; [by apply drop_at_length|]. split; [by apply drop_at_length|]. f_equal. by apply drop_at_length.
      + apply Forall_singleton. split.
        * eapply wf_list_shrink; [exact H3|]. intros n' x Hn' Hx Hxa. apply Hkl; [|done]. rewrite Forall_forall in H2. specialize (H2 n' Hn'). rewrite Forall_forall in H2. auto.
        * rewrite Forall_forall in Hresl |- *. intros x Hx. specialize (Hresl x Hx). assert (Hx' : x ∈ rargs r ++ own ns').
          { rewrite Forall_forall in H4. apply H4. rewrite fmap_cons. revert Hx. rewrite !elem_of_cons. intros [?|Hx]; [auto|]. right.
            rewrite <-(drop_at_redirect dead (rargs r)) in Hx. rewrite <-drop_at_fmap in Hx. by eapply drop_at_subset. }
          revert Hx'. rewrite !elem_of_app. intros [?|?]; auto.
    - apply Forall_forall. intros x Hx. by eapply drop_at_subset.
    - intros o Ho Hl. pose proof (Halive o Hl Ho) as Hc. apply elem_of_list_lookup in Ho as [i Hi]. apply drop_at_elem. exists i. split; [done|].
      unfold dead. rewrite (nth_elem _ _ _ _ Hi). apply andb_false_iff. right. apply negb_false_iff. by apply bool_decide_eq_true.
    - intros s0 Hs o w' Hw'. cbn [dins] in Hw'.
      assert (Hsr : forall i x, ins !! i = Some x -> dead i = false -> rsl x (s0 x)).
      { intros i x Hi Hp. rewrite Forall_forall in Hs. apply Hs. apply drop_at_elem. eauto. }
      apply ndefs_unfold in Hw' as [Hw'|(r2 & Hr2 & [Hw'|Hw'])].
      + apply elem_of_index in Hw' as (j & Hj & ->). destruct (drop_at_lookup _ _ _ _ Hj) as (i & Hi & Hp & Hal).
        exists (VTheta pr (nth i posts 0) (nth i ins 0) (zip (zip (rargs r) ins) posts)). split.
        { apply ndefs_unfold; left; apply elem_of_index. exists i. split; [done|]. cbn [out_view nth]. unfold loop_vars. by rewrite Eres. }
        destruct (lookup_lt_is_Some_2 posts i) as [y Hy]. { rewrite Hlr. by eapply lookup_lt_Some. }
        destruct (lookup_lt_is_Some_2 ins i) as [x Hx]. { rewrite Hlo. by eapply lookup_lt_Some. }
        cbn [out_view nth rres rargs]. unfold loop_vars. cbn [rres rargs tail]. rewrite (nth_elem _ _ _ _ Hy), (nth_elem _ _ _ _ Hx).
        rewrite (nth_elem (s <$> _) j _ (s y)); [|rewrite list_lookup_fmap, Hal, Hy; done].
        rewrite (nth_elem (s0 <$> _) j _ (s0 x)); [|rewrite list_lookup_fmap, Hal, Hx; done].
        apply v_theta; [done | eauto | eauto |]. apply lvrel_drop; [done | congruence | done | done | done].
      + apply elem_of_list_singleton in Hr2 as ->. cbn [rargs] in Hw'. apply elem_of_index in Hw' as (j & Hj & ->).
        destruct (drop_at_lookup _ _ _ _ Hj) as (i & Hi & Hp & Hal). exists (VThetaArg (nth i outs 0) (nth i ins 0)). split.
        { apply ndefs_unfold. right. exists r. split; [left|]. left. apply elem_of_index. eauto. }
        destruct (lookup_lt_is_Some_2 ins i) as [x Hx]. { rewrite <-Hla. by eapply lookup_lt_Some. }
        destruct (lookup_lt_is_Some_2 outs i) as [y Hy]. { rewrite <-Hlo. by eapply lookup_lt_Some. }
        cbn [arg_view]. rewrite (nth_elem _ _ _ _ Hx), (nth_elem _ _ _ _ Hy).
        rewrite (nth_elem (s0 <$> _) j _ (s0 x)); [|rewrite list_lookup_fmap, Hal, Hx; done].
        rewrite (nth_elem _ j _ y); [|rewrite Hal, Hy; done]. apply v_targ. eauto.
      + apply elem_of_list_singleton in Hr2 as ->. destruct (H6 o w' Hw') as (w & Hw0 & Hv). exists w. split; [|done].
        apply ndefs_unfold. right. exists r. split; [left | auto].
  Qed.
End Node.
