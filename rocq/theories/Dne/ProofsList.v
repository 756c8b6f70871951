(** One region is swept, given that its alive nodes are. *)
From stdpp Require Import base list list_numbers fin_sets gmap relations.
From Verif.Rvsdg Require Import Model Spec Sem Wf WfFacts ListFacts.
From Verif.Dne Require Import Model Spec ProofsMark Rel.

Definition dins (s : oid -> oid) (n : node) : node := let 'Node id k ins outs subs := n in Node id k (s <$> ins) outs subs.
Lemma nins_dins s n : nins (dins s n) = s <$> nins n.
Proof. by destruct n. Qed.
Lemma nouts_dins s n : nouts (dins s n) = nouts n.
Proof. by destruct n. Qed.
Lemma divert_dins o x n : divert_ins o x n = dins (sub1 o x) n.
Proof. by destruct n. Qed.
Lemma dins_comp s s' n : dins s (dins s' n) = dins (s ∘ s') n.
Proof. destruct n. cbn. by rewrite list_fmap_compose. Qed.
Lemma dins_id s n : Forall (fun x => s x = x) (nins n) -> dins s n = n.
Proof. destruct n as [id k ins outs subs]. cbn. intros H. f_equal. induction H; cbn; [done | by f_equal]. Qed.
Lemma fmap_id_on (s : oid -> oid) l : Forall (fun x => s x = x) l -> s <$> l = l.
Proof. induction 1; cbn; [done | by f_equal]. Qed.

Definition upairs : list (oid * oid) -> list node * list oid -> list node * list oid :=
  fun l st => foldl (fun st '(o, x) => divert_users o x st.1 st.2) st l.
Lemma upairs_spec (L : list (oid * oid)) ns res : NoDup L.*1 -> (forall x, x ∈ L.*2 -> x ∉ L.*1) ->
  exists s, upairs L (ns, res) = (dins s <$> ns, s <$> res) /\ (forall y, y ∉ L.*1 -> s y = y) /\ (forall o x, (o, x) ∈ L -> s o = x).
Proof.
  revert ns res. induction L as [|[o x] L IH]; intros ns res Hn Hd.
  - exists id. split; [|split; [done | by intros ?? ?%elem_of_nil]]. unfold upairs. cbn [foldl]. f_equal; [|by rewrite list_fmap_id].
    induction ns as [|n ns IHn]; [done|]. rewrite fmap_cons, <-IHn. f_equal. symmetry. apply dins_id, Forall_forall. done.
  - cbn in Hn. apply NoDup_cons in Hn as [Hno Hn]. unfold upairs in *. cbn [foldl].
    destruct (IH (divert_ins o x <$> ns) (sub1 o x <$> res) Hn) as (s & He & Hs1 & Hs2).
    { intros y Hy Hy'. apply (Hd y); cbn; by right. }
    exists (s ∘ sub1 o x). split; [|split].
    + etrans; [exact He|]. f_equal; [|by rewrite list_fmap_compose].
      rewrite <-list_fmap_compose. apply list_fmap_ext. intros i n _. cbn. by rewrite divert_dins, dins_comp.
    + intros y Hy. cbn in Hy |- *. unfold sub1. rewrite decide_False; [apply Hs1 | ]; set_solver.
    + intros o2 x2. rewrite elem_of_cons. unfold sub1. cbn. intros [[= -> ->] | Hin].
      * rewrite decide_True by done. apply Hs1. intros Hx. apply (Hd x); cbn; [left | by right].
      * rewrite decide_False; [by apply Hs2|]. intros ->. apply Hno. apply elem_of_fst. eauto.
Qed.
Lemma is_used_iff o ns res : is_used o ns res = true <-> o ∈ res \/ exists n, n ∈ ns /\ o ∈ nins n.
Proof.
  unfold is_used. rewrite orb_true_iff, bool_decide_eq_true, existsb_exists. setoid_rewrite bool_decide_eq_true. setoid_rewrite <-elem_of_list_In. done.
Qed.
Lemma own_cons n ns : own (n :: ns) = nouts n ++ own ns.
Proof. done. Qed.
Lemma wf_list_shrink f av av2 ns : wf_list f av ns -> (forall n x, n ∈ ns -> x ∈ nins n -> x ∈ av -> x ∈ av2) -> wf_list f av2 ns.
Proof.
  revert av av2. induction ns as [|n ns IH]; intros av av2; cbn [wf_list]; [done|]. intros (H1 & H2 & H3) Hs. split; [|split; [done|]].
  - rewrite Forall_forall in *. intros x Hx. eapply Hs; [left | done | auto].
  - eapply IH; [exact H3|]. intros n' x Hn Hx. rewrite !elem_of_app. intros [?|?]; [left; eapply Hs; [right; eauto | done | done] | by right].
Qed.
Lemma wf_dins s n : wf_node n -> wf_node (dins s n).
Proof.
  destruct n as [id k ins outs subs]. cbn [dins]. rewrite !wf_node_unfold. intros [H1 H2]. split; [|done].
  destruct k; cbn [shape] in *; rewrite ?fmap_length; try done. destruct H1 as [H1 ?]. split; [|done]. by destruct ins.
Qed.
Lemma wf_list_dins s av ns : wf_list wf_node av ns -> (forall x, x ∈ av -> s x ∈ av) -> (forall x, x ∈ own ns -> s x = x) -> wf_list wf_node av (dins s <$> ns).
Proof.
  revert av. induction ns as [|n ns IH]; intros av; [done|]. rewrite fmap_cons. cbn [wf_list]. rewrite nins_dins, nouts_dins. intros (H1 & H2 & H3) Ha Ho. split; [|split].
  - apply Forall_fmap. eapply Forall_impl; [exact H1|]. cbn. auto.
  - by apply wf_dins.
  - apply IH; [done | |]. + intros x. rewrite !elem_of_app. intros [?|?]; [left; auto|]. right. rewrite Ho; [done|]. rewrite own_cons, elem_of_app. auto.
    + intros x Hx. apply Ho. rewrite own_cons, elem_of_app. auto.
Qed.
Lemma own_dins s ns : own (dins s <$> ns) = own ns.
Proof. induction ns as [|n ns IH]; [done|]. rewrite fmap_cons, !own_cons, IH. by rewrite nouts_dins. Qed.

Section Sweep.
  Context (t : region) (c : ctx).
  Context (Hnd : NoDup (defs t).*1) (Hcl : closed t c).
  Context (Hkeys : forall o w x, (o, w) ∈ defs t -> x ∈ refs w -> x ∈ (defs t).*1).
  Local Notation liveo := (liveo t c).
  Local Notation edge := (edge t c).
  Local Notation byp := (byp t c).
  Local Notation rsl := (rsl t c).
  Local Notation vrel := (vrel t c).

  Lemma live_unique o w : (o, w) ∈ defs t -> liveo o -> live c o w.
  Proof using Hnd. clear Hcl Hkeys. intros Hw (w' & Hw' & Hl). assert (w = w') as -> by (eapply defs_fun; eauto). done. Qed.
  Lemma edges_live o x : rtc edge o x -> liveo o -> liveo x.
  Proof using Hnd Hcl Hkeys. induction 1; [done|]. intros. apply IHrtc. eapply edge_live; eauto. Qed.
  Lemma lvl_liveo x : x ∈ (defs t).*1 -> lv t c x -> liveo x.
  Proof using Hnd. clear Hcl Hkeys. by apply lv_liveo. Qed.

  Definition node_res (n n1 : node) : Prop :=
    Forall (fun x => x ∈ nins n) (nins n1) /\ Forall liveo (nins n1) /\ wf_node n1 /\
    Forall (fun x => x ∈ nouts n) (nouts n1) /\ (forall o, o ∈ nouts n -> liveo o -> o ∈ nouts n1) /\
    (forall s, Forall (fun x => rsl x (s x)) (nins n1) -> forall o w', (o, w') ∈ ndefs (dins s n1) -> exists w, (o, w) ∈ ndefs n /\ vrel w w').
  Definition good_node (f : node -> option node) (n : node) : Prop :=
    (forall d, d ∈ ndefs n -> d ∈ defs t) /\ shape (nkind n) (nins n) (nouts n) (nsubs n) /\
    (alive_node c n = true -> exists n1, f n = Some n1 /\ node_res n n1).
  Inductive kept (s : oid -> oid) : list node -> list node -> Prop :=
    | kept_nil : kept s [] []
    | kept_dead n ns ns' : kept s ns ns' -> kept s (n :: ns) ns'
    | kept_alive n n1 ns ns' : alive_node c n = true -> node_res n n1 -> kept s ns ns' -> kept s (n :: ns) (dins s n1 :: ns').
  Lemma kept_comp s s' ns ns' : kept s ns ns' -> kept (s' ∘ s) ns (dins s' <$> ns').
  Proof using. clear. induction 1 as [|n ns ns' H IH|n n1 ns ns' Ha Hr H IH]; [constructor | by constructor|]. rewrite fmap_cons, dins_comp. by constructor. Qed.

  Lemma out_in_defs n i o : (forall d, d ∈ ndefs n -> d ∈ defs t) -> nouts n !! i = Some o -> (o, out_view (nid n) (nkind n) (nins n) (nouts n) (nsubs n) i) ∈ defs t.
  Proof using. clear. destruct n as [id k ins outs subs]. cbn [nouts nid nkind nins nsubs]. intros H Hi. apply H, ndefs_unfold. left. apply elem_of_index. eauto. Qed.
  Definition structural (k : kind) : bool := match k with Simple _ | Load _ => false | _ => true end.
  Lemma live_out_structural n o : (forall d, d ∈ ndefs n -> d ∈ defs t) -> structural (nkind n) = true -> o ∈ nouts n -> liveo o -> o ∈ couts c.
  Proof using Hnd.
    clear Hcl Hkeys. intros Hd Hs [i Hi]%elem_of_list_lookup Hl. pose proof (live_unique _ _ (out_in_defs n i o Hd Hi) Hl) as H.
    destruct (nkind n); try discriminate; exact H.
  Qed.
  Lemma dead_outs n o : (forall d, d ∈ ndefs n -> d ∈ defs t) -> alive_node c n = false -> (forall op, nkind n <> Load op) -> o ∈ nouts n -> ~ liveo o.
  Proof using Hnd.
    clear Hcl Hkeys. intros Hd Ha Hk Ho Hl. unfold alive_node in Ha. destruct (structural (nkind n)) eqn:Es.
    - pose proof (live_out_structural n o Hd Es Ho Hl) as H. assert (Hx : existsb (alive_out c) (nouts n) = true).
      { apply existsb_exists. exists o. split; [by apply elem_of_list_In|]. unfold alive_out. by apply bool_decide_eq_true. }
      destruct (nkind n); try discriminate; rewrite Hx in Ha; discriminate.
    - apply elem_of_list_lookup in Ho as [i Hi]. pose proof (live_unique _ _ (out_in_defs n i o Hd Hi) Hl) as H.
      destruct (nkind n) as [op|op| | | | | ] eqn:Ek; try discriminate.
      + cbn [out_view live] in H. apply bool_decide_eq_false in Ha. destruct H as [?|[? _]]; done.
      + by destruct (Hk op).
  Qed.

  Lemma sweep_list_ok f (res ex : list nat) ns : forall av, Forall (good_node f) ns -> wf_list (fun _ => True) av ns -> NoDup (own ns) -> (forall x, x ∈ av -> x ∉ own ns) ->
    Forall (fun x => x ∈ av ++ own ns) res -> Forall (fun x => liveo x \/ x ∈ ex) res -> (forall x, x ∈ ex -> x ∈ av) ->
    exists ns' s, sweep_list c f res ns = Some (ns', s <$> res) /\ kept s ns ns' /\
      (forall x, x ∈ av -> s x = x) /\ (forall x, rtc edge x (s x)) /\ (forall x, x ∈ av ++ own ns -> s x ∈ av ++ own ns /\ (byp (s x) -> s x ∈ av)) /\
      Forall (fun n => Forall liveo (nins n)) ns' /\ wf_list wf_node av ns' /\
      Forall (fun x => x ∈ av ++ own ns') (s <$> res) /\ Forall (fun x => liveo x \/ x ∈ ex) (s <$> res).
  Proof using Hnd Hcl Hkeys.
    induction ns as [|n ns IH]; intros av Hg Hw Hno Hdis Hsc Hlv Hex.
    { exists [], id. cbn [sweep_list]. rewrite list_fmap_id. split; [done|]. split; [constructor|]. split; [done|]. split; [intros; constructor|].
      split; [|repeat split; auto]. intros x Hx. split; [done|]. intros _. unfold id, own in *. cbn in Hx. by rewrite app_nil_r in Hx. }
    apply Forall_cons in Hg as [Hgn Hg]. cbn [wf_list] in Hw. destruct Hw as (Hin & _ & Hw). rewrite own_cons in Hno, Hdis, Hsc.
    apply NoDup_app in Hno as (Hno1 & Hno2 & Hno3).
    destruct (IH (av ++ nouts n)) as (ns' & s & He & Hk & Hid & Hch & Hbp & Hlin & Hwf & Hrs & Hrl); [done | done | done | | | done | |].
    { intros x. rewrite elem_of_app. intros [H|H]; [intros H2; apply (Hdis x H); apply elem_of_app; auto | auto]. }
    { rewrite <-app_assoc. done. }
    { intros x Hx. apply elem_of_app. auto. }
    cbn [sweep_list]. fold (sweep_list c f res). rewrite He. cbn [mbind option_bind fst snd].
    assert (Hused : forall x, is_used x ns' (s <$> res) = true -> liveo x \/ x ∈ ex).
    { intros x. rewrite is_used_iff. rewrite Forall_forall in Hrl. intros [H|(n' & Hn' & H)]; [auto|]. left. rewrite Forall_forall in Hlin. specialize (Hlin n' Hn'). rewrite Forall_forall in Hlin. auto. }
    assert (Hnav : forall o, o ∈ nouts n -> o ∉ av). { intros o Ho Ha. apply (Hdis o Ha). apply elem_of_app. auto. }
    assert (Hunused : forall o, o ∈ nouts n -> ~ liveo o -> is_used o ns' (s <$> res) = false).
    { intros o Ho Hl. apply not_true_iff_false. intros Hu. destruct (Hused o Hu) as [?|H]; [done|]. apply (Hnav o Ho). auto. }
    destruct Hgn as (Hd & Hsh & Hgn). destruct (alive_node c n) eqn:Ea.
    - (* alive *)
      assert (Hok : outs_ok c n ns' (s <$> res) = true).
      { unfold outs_ok. destruct (nkind n) eqn:Ek; try done.
        - apply forallb_forall. intros o Ho%elem_of_list_In. destruct (alive_out c o) eqn:Eo; [done|]. cbn. rewrite Hunused; [done | done|].
          intros Hl. eapply live_out_structural in Hl; [|done | by rewrite Ek | done]. unfold alive_out in Eo. by apply bool_decide_eq_false in Eo.
        - apply forallb_forall. intros [o a] Ho%elem_of_list_In. destruct (alive_out c o) eqn:Eo; [done|]. apply elem_of_zip_2 in Ho as [Ho _]. cbn. destruct (alive_out c a); [done|]. cbn. rewrite Hunused; [done | done|].
          intros Hl. eapply live_out_structural in Hl; [|done | by rewrite Ek | done]. unfold alive_out in Eo. by apply bool_decide_eq_false in Eo.
        - apply forallb_forall. intros [o a] Ho%elem_of_list_In. destruct (alive_out c o) eqn:Eo; [done|]. apply elem_of_zip_2 in Ho as [Ho _]. cbn. destruct (alive_out c a); [done|]. cbn. rewrite Hunused; [done | done|].
          intros Hl. eapply live_out_structural in Hl; [|done | by rewrite Ek | done]. unfold alive_out in Eo. by apply bool_decide_eq_false in Eo. }
      rewrite Hok. destruct (Hgn eq_refl) as (n1 & Hf & Hn1). rewrite Hf. cbn [mbind option_bind].
      pose proof Hn1 as (Hi1 & Hl1 & Hw1 & Ho1 & Ho2 & _).
      assert (Hi1' : Forall (fun x => x ∈ av) (nins n1)). { rewrite Forall_forall in Hi1, Hin |- *. auto. }
      exists (n1 :: ns'), s. split; [done|]. split; [|split; [|split; [done|split; [|split; [|split; [|split]]]]]].
      + assert (Hdi : dins s n1 = n1). { apply dins_id. eapply Forall_impl; [exact Hi1'|]. intros x Hx. apply Hid. apply elem_of_app. auto. }
        rewrite <-Hdi. by constructor.
      + intros x Hx. apply Hid, elem_of_app. auto.
      + intros x. rewrite own_cons, app_assoc. intros Hx. destruct (Hbp x Hx) as [H1 H2]. split; [done|]. intros Hb. specialize (H2 Hb).
        apply elem_of_app in H2 as [?|H2]; [done|]. exfalso.
        destruct Hb as (id & op & k & ins & Hb & Hnc). apply elem_of_list_lookup in H2 as [i Hi].
        pose proof (out_in_defs n i _ Hd Hi) as Hd'. pose proof (defs_fun _ _ _ _ Hnd Hb Hd') as Hv. unfold alive_node in Ea.
        destruct (nkind n); try discriminate Hv. cbn [out_view] in Hv. injection Hv as -> -> <- ->. by apply bool_decide_eq_true in Ea.
      + constructor; done.
      + cbn [wf_list]. split; [done|]. split; [done|]. eapply wf_list_shrink; [exact Hwf|].
        intros n' x Hn' Hx Hxa. apply elem_of_app in Hxa as [?|Hxa]; apply elem_of_app; [auto|]. right. apply Ho2; [done|].
        rewrite Forall_forall in Hlin. specialize (Hlin n' Hn'). rewrite Forall_forall in Hlin. auto.
      + rewrite Forall_forall in Hrs, Hrl |- *. intros x Hx. specialize (Hrs x Hx). specialize (Hrl x Hx). rewrite own_cons.
        revert Hrs. rewrite !elem_of_app. intros [[?|Ho]|?]; [auto| |auto]. right; left. apply Ho2; [done|]. destruct Hrl as [?|He']; [done|].
        exfalso. eapply Hnav; [exact Ho | auto].
      + done.
    - (* dead *)
      unfold remove_node. destruct (nkind n) as [op|op| | | | |] eqn:Ek.
      2:{ (* load *)
        destruct n as [id k ins outs subs]. cbn [nkind nins nouts nid nsubs] in *. subst k. cbn [shape] in Hsh. destruct Hsh as [-> Hlen].
        assert (Hnc : id ∉ cnodes c). { unfold alive_node in Ea. cbn [nkind nid] in Ea. by apply bool_decide_eq_false in Ea. }
        set (L := tail (zip outs ins)).
        assert (HL : forall o x, (o, x) ∈ L <-> exists k, outs !! S k = Some o /\ ins !! S k = Some x).
        { intros o x. unfold L. destruct outs as [|o0 outs], ins as [|x0 ins]; try discriminate Hlen.
          - cbn. split; [by intros ?%elem_of_nil | intros (? & ? & _); done].
          - cbn. rewrite elem_of_list_lookup. split; intros [k Hk']; exists k.
            + by apply lookup_zip_with_Some in Hk' as (? & ? & [= -> ->] & ? & ?).
            + apply lookup_zip_with_Some. exists o, x. tauto. }
        assert (HLe : forall o x, (o, x) ∈ L -> edge o x).
        { intros o x (k & Hk1 & Hk2)%HL. exists id, op, k, ins. split; [|done]. exact (out_in_defs (Node id (Load op) ins outs []) (S k) o Hd Hk1). }
        assert (HL1 : forall o, o ∈ L.*1 -> o ∈ outs /\ exists x, (o, x) ∈ L).
        { intros o [x Hx]%elem_of_fst. split; [|eauto]. apply HL in Hx as (k & Hx & _). by eapply elem_of_list_lookup_2. }
        assert (HL2 : forall o x, (o, x) ∈ L -> x ∈ av).
        { intros o x (k & _ & Hx)%HL. rewrite Forall_forall in Hin. apply Hin. by eapply elem_of_list_lookup_2. }
        assert (Ho0 : forall o, o ∈ outs -> o ∈ L.*1 \/ ~ liveo o).
        { intros o [i Hi]%elem_of_list_lookup. destruct i as [|k].
          - right. intros Hl. pose proof (live_unique _ _ (out_in_defs (Node id (Load op) ins outs []) 0 o Hd Hi) Hl) as [H|(_ & H & _)]; done.
          - left. destruct (lookup_lt_is_Some_2 ins (S k)) as [x Hx]. { rewrite Hlen. by eapply lookup_lt_Some. }
            apply elem_of_fst. exists x. apply HL. eauto. }
        destruct (upairs_spec L ns' (s <$> res)) as (s' & Hup & Hs1 & Hs2).
        { destruct outs as [|o0 outs], ins as [|x0 ins]; try discriminate Hlen; unfold L; cbn; [constructor|]. apply NoDup_cons in Hno1 as [_ Hno1].
          injection Hlen as Hlen. rewrite fst_zip by lia. done. }
        { intros x [[o y] [-> Hx]]%elem_of_list_fmap Hx'. cbn in Hx'. apply (Hnav y); [by apply HL1 | by eapply HL2]. }
        assert (Hs'av : forall x, x ∈ av -> s' x = x). { intros x Hx. apply Hs1. intros Hx'. apply (Hnav x); [by apply HL1 | done]. }
        assert (Hs'e : forall x, rtc edge x (s' x)).
        { intros x. destruct (decide (x ∈ L.*1)) as [Hx|Hx]; [|rewrite Hs1 by done; constructor].
          destruct (HL1 x Hx) as [_ [y Hy]]. rewrite (Hs2 _ _ Hy). apply rtc_once. auto. }
        assert (Hs'own : forall x, x ∈ own ns -> s' x = x).
        { intros x Hx. apply Hs1. intros Hx'. apply (Hno2 x); [by apply HL1 | done]. }
        unfold upairs in Hup. rewrite Hup. cbn [fst snd].
        assert (Hnotout : forall x o, liveo x \/ x ∈ ex -> o ∈ outs -> s' x <> o).
        { intros x o Hx Ho <-. destruct (decide (x ∈ L.*1)) as [Hx1|Hx1].
          - destruct (HL1 x Hx1) as [_ [y Hy]]. rewrite (Hs2 _ _ Hy) in Ho. apply (Hnav y Ho). by eapply HL2.
          - rewrite Hs1 in Ho by done. destruct (Ho0 x Ho) as [?|Hnl]; [done|]. destruct Hx as [?|Hx]; [done|]. apply (Hnav x Ho). auto. }
        assert (Hlin' : Forall (fun n => Forall liveo (nins n)) (dins s' <$> ns')).
        { apply Forall_fmap. eapply Forall_impl; [exact Hlin|]. intros n' Hn'. cbn. rewrite nins_dins. apply Forall_fmap. eapply Forall_impl; [exact Hn'|].
          intros x Hx. cbn. eapply edges_live; [apply Hs'e | done]. }
        assert (Hassert : forallb (fun o => negb (is_used o (dins s' <$> ns') (s' <$> (s <$> res)))) outs = true).
        { apply forallb_forall. intros o Ho%elem_of_list_In. apply negb_true_iff, not_true_iff_false. rewrite is_used_iff. intros [Hx|(n' & Hn' & Hx)].
          - apply elem_of_list_fmap in Hx as (x & Hox & Hx). rewrite Forall_forall in Hrl. apply (Hnotout x o); [by apply Hrl | done | done].
          - apply elem_of_list_fmap in Hn' as (n2 & -> & Hn2). rewrite nins_dins in Hx. apply elem_of_list_fmap in Hx as (x & Hox & Hx).
            rewrite Forall_forall in Hlin. specialize (Hlin n2 Hn2). rewrite Forall_forall in Hlin. apply (Hnotout x o); [left; by apply Hlin | done | done]. }
        fold (dins s') in *. rewrite Hassert.
        exists (dins s' <$> ns'), (s' ∘ s). rewrite list_fmap_compose. split; [done|]. split; [constructor; by apply kept_comp|].
        split; [|split; [|split; [|split; [|split; [|split]]]]].
        + intros x Hx. cbn. rewrite Hid by (apply elem_of_app; auto). auto.
        + intros x. cbn. etrans; [apply Hch | apply Hs'e].
        + intros x. rewrite own_cons, app_assoc. cbn [nouts]. intros Hx. destruct (Hbp x Hx) as [H1 H2]. cbn.
          destruct (decide (s x ∈ L.*1)) as [Hx1|Hx1].
          * destruct (HL1 _ Hx1) as [_ [y Hy]]. rewrite (Hs2 _ _ Hy). pose proof (HL2 _ _ Hy). split; [|done]. apply elem_of_app. left. apply elem_of_app. auto.
          * rewrite Hs1 by done. split; [done|]. intros Hb. specialize (H2 Hb). apply elem_of_app in H2 as [?|H2]; [done|]. exfalso.
            destruct Hb as (id' & op' & k' & ins' & Hb & _). apply elem_of_list_lookup in H2 as [i Hi].
            pose proof (defs_fun _ _ _ _ Hnd Hb (out_in_defs (Node id (Load op) ins outs []) i _ Hd Hi)) as Hv. cbn in Hv. injection Hv as -> -> <- ->.
            apply Hx1. destruct (lookup_lt_is_Some_2 ins (S k')) as [y Hy]. { rewrite Hlen. by eapply lookup_lt_Some. }
            apply elem_of_fst. exists y. apply HL. eauto.
        + done.
        + eapply wf_list_shrink; [eapply (wf_list_dins s'); [exact Hwf | |]|].
          * intros x Hx. destruct (decide (x ∈ L.*1)) as [Hx1|Hx1]; [|by rewrite Hs1]. destruct (HL1 x Hx1) as [_ [y Hy]]. rewrite (Hs2 _ _ Hy). apply elem_of_app. left. by eapply HL2.
          * intros x Hx. apply Hs1. intros Hx1. assert (Hx2 : x ∈ own ns).
            { clear -Hk Hx. induction Hk as [|n ns ns' H IH|n n1 ns ns' Ha Hr H IH]; [done| |].
              - rewrite own_cons, elem_of_app. auto.
              - rewrite own_cons, nouts_dins in Hx. rewrite own_cons. apply elem_of_app in Hx as [Hx|Hx]; apply elem_of_app; [left | auto].
                destruct Hr as (_ & _ & _ & Hr & _). rewrite Forall_forall in Hr. auto. }
            apply (Hno2 x); [by apply HL1 | done].
          * intros n' x Hn' Hx Hxa. apply elem_of_app in Hxa as [?|Hxa]; [done|]. exfalso.
            rewrite forallb_forall in Hassert. apply elem_of_list_In in Hxa. apply Hassert, negb_true_iff in Hxa. apply not_true_iff_false in Hxa. apply Hxa. apply is_used_iff. right. eauto.
        + rewrite own_dins. apply Forall_fmap. rewrite Forall_forall in Hrs, Hrl |- *. intros x Hx. cbn. specialize (Hrs x Hx). specialize (Hrl x Hx).
          destruct (decide (x ∈ L.*1)) as [Hx1|Hx1].
          * destruct (HL1 x Hx1) as [_ [y Hy]]. rewrite (Hs2 _ _ Hy). apply elem_of_app. left. by eapply HL2.
          * rewrite Hs1 by done. revert Hrs. rewrite !elem_of_app. intros [[?|Ho]|?]; [auto| |auto]. exfalso.
            destruct (Ho0 x Ho) as [?|Hnl]; [done|]. destruct Hrl as [?|Hxe]; [done|]. apply (Hnav x Ho). auto.
        + apply Forall_fmap. eapply Forall_impl; [exact Hrl|]. intros x [Hx|Hx]; cbn; [left; eapply edges_live; [apply Hs'e | done] | right; rewrite Hs'av; auto]. }
      all: assert (Hdead : forall o, o ∈ nouts n -> ~ liveo o) by (intros o Ho; eapply dead_outs; eauto; intros; congruence).
      all: assert (Hassert : forallb (fun o => negb (is_used o ns' (s <$> res))) (nouts n) = true)
        by (apply forallb_forall; intros o Ho%elem_of_list_In; rewrite Hunused; auto).
      all: cbn [fst snd]; rewrite Hassert.
      all: exists ns', s; split; [done|]; split; [by constructor|]; split; [intros x Hx; apply Hid, elem_of_app; auto|]; split; [done|]; split; [|split; [done|split; [|split]]].
      all: try (eapply wf_list_shrink; [exact Hwf|]; intros n' x Hn' Hx Hxa; apply elem_of_app in Hxa as [?|Hxa]; [done|]; exfalso;
        apply (Hdead x Hxa); rewrite Forall_forall in Hlin; specialize (Hlin n' Hn'); rewrite Forall_forall in Hlin; by apply Hlin).
      all: try exact Hrl.
      all: try (rewrite Forall_forall in Hrs, Hrl |- *; intros x Hx; specialize (Hrs x Hx); specialize (Hrl x Hx);
        revert Hrs; rewrite !elem_of_app; intros [[?|Ho]|?]; [auto| |auto]; exfalso; destruct Hrl as [?|Hxe]; [by apply (Hdead x Ho) | apply (Hnav x Ho); auto]).
      all: intros x; rewrite own_cons, app_assoc; intros Hx; destruct (Hbp x Hx) as [H1 H2]; split; [done|]; intros Hb; specialize (H2 Hb);
        apply elem_of_app in H2 as [?|H2]; [done|]; exfalso; destruct Hb as (id & op' & k & ins & Hb & Hnc); apply elem_of_list_lookup in H2 as [i Hi];
        pose proof (out_in_defs n i _ Hd Hi) as Hd'; pose proof (defs_fun _ _ _ _ Hnd Hb Hd') as Hv; rewrite Ek in Hv; discriminate Hv.
  Qed.
End Sweep.
