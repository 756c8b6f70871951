(** Without loops every node is marked once, and leaders come first. *)
From stdpp Require Import base list list_numbers fin_sets gmap.
From Verif.Rvsdg Require Import Model Spec Sem Wf WfFacts Args Divert Local.
From Verif.Dne Require Import Model ProofsShrink.
From Verif.Ivr Require Import Model ProofsMain.
From Verif.Cne Require Import Model Spec ProofsSem ProofsState ProofsPart Just JustView Pre ProofsSimple ProofsOuts ProofsSubs ProofsMain.

Lemma reg_trans a b c : reg a b -> reg b c -> reg a c.
Proof. intros H. induction 1; [done|]. by eapply reg_sub. Qed.
Lemma theta_free_sub t n r : theta_free t -> n ∈ rnodes t -> r ∈ nsubs n -> theta_free r.
Proof. intros H Hn Hr r' m Hr' Hm. eapply H; [|exact Hm]. eapply reg_trans; [|exact Hr']. eapply reg_sub; [constructor | exact Hn | exact Hr]. Qed.

Section Simple.
  Context (choose : cstate -> list nat -> option nat) (Hch : forall σ l x, choose σ l = Some x -> x ∈ l).
  Context (ns : list node) (Hown : NoDup (own ns)) (Hids : NoDup (map nid ns)).
  Definition first (σ : cstate) (pre : list node) (n : node) : Prop := forall o, o ∈ nouts n -> lead σ o = o \/ exists m, m ∈ pre /\ lead σ o ∈ nouts m.
  Lemma follow_first σ σ' pre n m : SW σ -> n ∈ ns -> m ∈ ns -> m <> n -> (nouts m = [] \/ m ∈ pre) -> (forall o, o ∈ nouts m -> lead σ o = o) -> follow_node m n σ = Some σ' -> first σ' pre n.
  Proof using Hown.
    clear -Hown. intros Hw Hn Hm Hne Hp Hlm H. apply follow_node_spec in H as (H1 & H2 & H3 & H4); [|done | by apply (out_nodup ns Hown) |]. 2:{ intros x Hx Hx'. apply Hne. by eapply (out_unique ns Hown). }
    intros o Ho. apply elem_of_list_lookup in Ho as [k Hk]. destruct (lookup_lt_is_Some_2 (nouts m) k) as [x Hx]; [rewrite H1; by eapply lookup_lt_Some|]. destruct (H4 _ _ _ Hx Hk) as (_ & _ & E). destruct Hp as [Hp|Hp]; [by rewrite Hp in Hx|].
    right. exists m. split; [done|]. rewrite E, Hlm; by eapply elem_of_list_lookup_2.
  Qed.
  Lemma fresh_stays σ n m : n ∈ ns -> (forall o, o ∈ nouts n -> cmap σ !! o = None) -> leader_node σ ns n = Some m -> stays σ n m = true -> nouts n = [].
  Proof using.
    clear. intros Hn Hf. unfold leader_node. destruct (nouts n) as [|o l]; [done|]. rewrite (Hf o ltac:(left)). intros [= <-]. done.
  Qed.
  Lemma lead_all_first σ pre n : SW σ -> first (make_leaders (nouts n) σ) pre n.
  Proof using. clear. intros Hw o Ho. left. by apply (make_leaders_spec (nouts n) σ Hw). Qed.
  Lemma mark_simple_first σ σ' pre n : SW σ -> n ∈ ns -> (forall m, m ∈ ns -> is_simple m = true -> cons (lead σ) ns m) -> (forall o, o ∈ nouts n -> cmap σ !! o = None) -> (forall m o, m ∈ ns -> o ∈ nouts m -> marked σ o -> m ∈ pre) ->
    mark_simple choose ns n σ = Some σ' -> first σ' pre n.
  Proof using Hch Hown Hids.
    intros Hw Hn Hc Hf Hpre H. unfold mark_simple in H. destruct (leader_node σ ns n) as [m|] eqn:El; cbn [mbind option_bind] in H; [|done]. destruct (stays σ n m) eqn:Est.
    { intros o. rewrite (fresh_stays _ _ _ Hn Hf El Est). by intros ?%elem_of_nil. }
    destruct (choose σ _) as [i|] eqn:Ec; [|injection H as <-; by apply lead_all_first]. apply Hch in Ec. apply elem_of_list_filter in Ec as [Ec _]. destruct (ns !! i) as [m'|] eqn:Em; cbn [mbind option_bind] in H; [|done].
    unfold candidate in Ec. apply andb_true_iff in Ec as [Ec E4]. apply andb_true_iff in Ec as [Ec E3]. apply andb_true_iff in Ec as [E1 E2]. apply negb_true_iff, bool_decide_eq_false in E2.
    assert (Hm' : m' ∈ ns) by (by eapply elem_of_list_lookup_2). destruct (leader_node σ ns m') as [[m2|]|] eqn:El2; [|done|done]. apply bool_decide_eq_true in E4.
    eapply follow_first; [done | done | exact Hm' | by intros -> | | | done].
    - destruct (leader_node_spec _ _ _ _ Hw El2) as [[Hno _]|(o & Ho & Hmk & _)]; [by left|]. right. eapply Hpre; [done | by eapply elem_of_list_lookup_2 | done].
    - by eapply (leads_self ns Hown Hids); eauto.
  Qed.
  Lemma mark_top_first σ σ' pre tops tops' n : SW σ -> n ∈ ns -> n ∉ pre -> tops_ok ns σ pre tops -> (forall o, o ∈ nouts n -> cmap σ !! o = None) -> mark_top ns n tops σ = Some (tops', σ') -> first σ' pre n.
  Proof using Hown.
    clear Hch Hids. intros Hw Hn Hnp Ht Hf H. unfold mark_top in H. destruct (leader_node σ ns n) as [m|] eqn:El; cbn [mbind option_bind] in H; [|done]. destruct (stays σ n m) eqn:Est.
    { intros o. rewrite (fresh_stays _ _ _ Hn Hf El Est). by intros ?%elem_of_nil. }
    destruct (list_find _ tops) as [[i m']|] eqn:Ef; [|injection H as <- <-; by apply lead_all_first]. destruct (follow_node m' n σ) as [σ1|] eqn:E; cbn [mbind option_bind] in H; [|done]. injection H as <- <-. apply list_find_Some in Ef as (F1 & F2 & _).
    apply elem_of_list_lookup_2 in F1. destruct (Ht m' F1) as (H1 & H2 & H3 & H4). eapply follow_first; [done | done | exact H2 | by intros -> | by right | done | done].
  Qed.
End Simple.

Section Fresh.
  Context (choose : cstate -> list nat -> option nat) (Hch : forall σ l x, choose σ l = Some x -> x ∈ l).
  Definition unmarked (σ : cstate) (l : list oid) : Prop := forall x, x ∈ l -> cmap σ !! x = None.
  Definition fmarks (r : region) (f : cstate -> option cstate) : Prop := forall σ σ', SW σ -> unmarked σ (rdefs r).*1 -> (forall a, a ∈ rargs r -> lead σ a ∈ rargs r) -> f σ = Some σ' -> dok_region (lead σ') r.
  Lemma mark_sub_fresh k ins r f ch σ ch' σ' : wf_region r -> NoDup (subkeys r) -> (forall x, x ∈ ins -> x ∉ subkeys r) -> marks r f -> fmarks r f -> SW σ -> unmarked σ (subkeys r) -> mark_sub k ins (Some (ch, σ)) (r, f) = Some (ch', σ') -> dok_region (lead σ') r.
  Proof using.
    intros Hw Hn Hi Hm Hf Hs Hu H. cbn [mark_sub mbind option_bind fst snd] in H. destruct (sub_wf r Hn) as [Hna Hnd]. assert (Hud : unmarked σ (rdefs r).*1) by (intros x Hx; apply Hu; by apply subkeys_def). destruct (decide (rargs r = [])) as [Hnil|Hne].
    - rewrite Hnil in H. destruct (f σ) as [σ1|] eqn:E; cbn [mbind option_bind] in H; [|done]. injection H as <- <-. eapply Hf; [exact Hs | done | | exact E]. rewrite Hnil. by intros a ?%elem_of_nil.
    - assert (H' : (keys ← sub_keys k ins r σ; '(c, σ1) ← partition (rargs r) keys σ; if (c : bool) then σ2 ← f σ1; Some (true, σ2) else Some (ch, σ1)) = Some (ch', σ')) by (by destruct (rargs r)). clear H. rename H' into H.
      destruct (sub_keys k ins r σ) as [keys|] eqn:Ek; cbn [mbind option_bind] in H; [|done]. destruct (partition (rargs r) keys σ) as [[c σ1]|] eqn:Ep; cbn [mbind option_bind] in H; [|done].
      pose proof (sub_keys_spec _ _ _ _ _ Ek) as [Hlen _]. destruct (partition_spec _ _ _ _ _ Hs Hna Hlen Ep) as (P1 & P2 & P3 & P4).
      assert (Ha : forall a, a ∈ rargs r -> marked σ1 a /\ lead σ1 a ∈ rargs r). { intros a [i Hia]%elem_of_list_lookup. destruct (P4 i a Hia) as (Q1 & j & Q2 & _). split; [done | by eapply elem_of_list_lookup_2]. }
      destruct c.
      + destruct (f σ1) as [σ2|] eqn:E; cbn [mbind option_bind] in H; [|done]. injection H as <- <-. eapply Hf; [exact P1 | | intros a Hin; by apply Ha | exact E]. intros x Hx. rewrite (proj2 P2); [auto|]. intros Hx'. by apply (Hnd x).
      + specialize (P3 eq_refl). subst σ1. destruct (rargs r) as [|a l] eqn:Er; [done|]. destruct (Ha a ltac:(left)) as [[i Hmk] _]. rewrite (Hu a) in Hmk; [done|]. apply subkeys_arg. rewrite Er. left.
  Qed.
  Lemma mark_subs_fresh k ins l d ch σ ch' σ' : NoDup (mjoin (map subkeys (d ++ l))) -> (forall r, r ∈ d ++ l -> wf_region r) -> (forall r x, r ∈ d ++ l -> x ∈ ins -> x ∉ subkeys r) ->
    (forall r, r ∈ l -> marks r (mark_region choose r) /\ fmarks r (mark_region choose r)) -> SW σ -> (forall r, r ∈ d -> dok_region (lead σ) r) -> (forall r, r ∈ l -> unmarked σ (subkeys r)) ->
    foldl (mark_sub k ins) (Some (ch, σ)) (map (fun r => (r, mark_region choose r)) l) = Some (ch', σ') -> forall r, r ∈ d ++ l -> dok_region (lead σ') r.
  Proof using.
    revert d ch σ. induction l as [|r l IH]; intros d ch σ Hn Hw Hi Hm Hs Hd Hl H; cbn [map foldl] in H.
    - injection H as <- <-. by rewrite app_nil_r.
    - destruct (mark_sub k ins (Some (ch, σ)) (r, mark_region choose r)) as [[ch1 σ1]|] eqn:E; [|by rewrite foldl_None in H by (by intros [])].
      assert (Hin : r ∈ d ++ r :: l) by (apply elem_of_app; right; left). pose proof (NoDup_mjoin_elem _ _ _ Hn Hin) as Hnr. pose proof (Hl r ltac:(left)) as Hu. destruct (Hm r ltac:(left)) as [Hm1 Hm2].
      assert (Hpr : pre_region σ r) by (apply pre_fresh; intros x Hx; apply Hu; by apply subkeys_def). assert (Hfr : fresh_args σ r) by (intros a Ha; apply Hu; by apply subkeys_arg).
      destruct (mark_sub_spec k ins r _ (Hw r Hin) Hnr (fun x => Hi r x Hin) Hm1 _ _ _ _ Hs Hpr (or_introl Hfr) E) as (G1 & G2 & _ & _ & _ & _).
      pose proof (mark_sub_fresh k ins r _ _ _ _ _ (Hw r Hin) Hnr (fun x => Hi r x Hin) Hm1 Hm2 Hs Hu E) as Hdr.
      assert (Hdis : forall r', r' ∈ d ++ l -> forall x, x ∈ subkeys r' -> x ∉ subkeys r).
      { intros r' Hr' x Hx Hx'. rewrite mjoin_map_app in Hn. change (mjoin (map subkeys (r :: l))) with (subkeys r ++ mjoin (map subkeys l)) in Hn. apply NoDup_app in Hn as (_ & Hn1 & Hn2). apply NoDup_app in Hn2 as (_ & Hn2 & _). apply elem_of_app in Hr' as [Hr'|Hr'].
        - apply (Hn1 x); [apply elem_of_mjoin_map; eauto | apply elem_of_app; by left].
        - apply (Hn2 x Hx'). apply elem_of_mjoin_map. eauto. }
      rewrite cons_middle, app_assoc in Hn, Hw, Hi |- *. apply (IH (d ++ [r]) ch1 σ1); [done | done | done | intros; apply Hm; by right | done | | |exact H].
      + intros r' Hr'. apply elem_of_app in Hr' as [Hr'|Hr'%elem_of_list_singleton]; [|by subst r']. apply (proj2 (dext (lead σ) (lead σ1))); [|auto]. intros x Hx. eapply ext_lead; [done | exact G2|]. eapply Hdis; [|exact Hx]. apply elem_of_app. by left.
      + intros r' Hr' x Hx. rewrite (proj2 G2); [eapply Hl; [by right | exact Hx]|]. eapply Hdis; [|exact Hx]. apply elem_of_app. by right.
  Qed.
  Definition nfmarks (n : node) (f : cstate -> option cstate) : Prop := forall σ σ' av, SW σ -> unmarked σ (ndefs n).*1 -> (forall x, x ∈ nins n -> lead σ x ∈ av) -> f σ = Some σ' ->
    dok_node (lead σ') n /\ forall o, o ∈ nouts n -> lead σ' o ∈ av ++ nouts n.
  Lemma mark_node_fresh n : good_node n -> is_simple n = false -> nkind n <> Theta -> (forall x, x ∈ nins n -> x ∉ (ndefs n).*1) -> (forall r, r ∈ nsubs n -> marks r (mark_region choose r) /\ fmarks r (mark_region choose r)) -> nfmarks n (mark_node choose n).
  Proof using Hch.
    destruct n as [id k ins outs subs]. intros Hg Hns Hk Hi IH σ σ' av Hs Hu Hav H. cbn [nins nsubs nkind nouts] in *. pose proof Hg as (Hw & Hn & _). unfold nkeys in Hn. rewrite nkeys_eq in Hn. apply NoDup_app in Hn as (Hno & Hod & Hnm).
    change (mjoin (map (fun r => rargs r ++ (rdefs r).*1) subs)) with (mjoin (map subkeys subs)) in *. apply wf_node_unfold in Hw as [Hsh Hwr]. rewrite Forall_forall in Hwr.
    assert (Hsub : forall r x, r ∈ subs -> x ∈ subkeys r -> x ∈ (ndefs (Node id k ins outs subs)).*1) by (intros r x Hr Hx; by eapply (subkeys_nkeys (Node id k ins outs subs))).
    assert (Hosub : forall r x, r ∈ subs -> x ∈ subkeys r -> x ∉ outs). { intros r x Hr Hx Ho. apply (Hod x Ho). apply elem_of_mjoin_map. eauto. }
    assert (Hins : forall r x, r ∈ subs -> x ∈ ins -> x ∉ subkeys r) by (intros r x Hr Hx Hx'; by eapply Hi, Hsub).
    assert (Hout : forall x, x ∈ outs -> x ∈ (ndefs (Node id k ins outs subs)).*1) by (intros x Hx; by apply (nouts_nkeys (Node id k ins outs subs))).
    assert (Hino : forall x, x ∈ ins -> x ∉ outs) by (intros x Hx Hx'; by eapply Hi, Hout).
    assert (Hpn : forall r, r ∈ subs -> pre_region σ r /\ (fresh_args σ r \/ sub_done σ r)). { intros r Hr. split; [apply pre_fresh; intros x Hx; apply Hu; eapply Hsub; [exact Hr | by apply subkeys_def] | left; intros a Ha; apply Hu; eapply Hsub; [exact Hr | by apply subkeys_arg]]. }
    assert (HS : forall ch σ1, mark_subs k ins (map (fun r => (r, mark_region choose r)) subs) σ = Some (ch, σ1) -> SW σ1 /\ ext σ σ1 (mjoin (map subkeys subs)) /\ forall r, r ∈ subs -> dok_region (lead σ1) r).
    { intros ch σ1 Hm. unfold mark_subs in Hm. assert (HA : SW σ1 /\ ext σ σ1 (mjoin (map subkeys subs)) /\ subs_ok k ins σ1 ([] ++ subs)). { eapply (mark_subs_fold choose k ins subs []); [done | done | intros; eapply Hins; eauto | intros; by apply IH | done | by intros r ?%elem_of_nil | auto | exact Hm]. } destruct HA as (A1 & A2 & _). split; [done|]. split; [done|].
      eapply (mark_subs_fresh k ins subs [] false σ ch σ1); [done | done | intros; eapply Hins; eauto | done | done | by intros r ?%elem_of_nil | | exact Hm]. intros r Hr x Hx. apply Hu. eauto. }
    assert (Hafter : forall σ1 σ2, SW σ1 -> ext σ1 σ2 outs -> (forall r, r ∈ subs -> dok_region (lead σ1) r) -> dok_node (lead σ2) (Node id k ins outs subs)).
    { intros σ1 σ2 W1 E1 Hok. cbn [dok_node]. rewrite fold_and, Forall_forall. intros r Hr. apply (proj2 (dext (lead σ1) (lead σ2))); [|auto]. intros x Hx. eapply ext_lead; [done | exact E1|]. eauto. }
    assert (Hself : forall σ2, (forall o, o ∈ outs -> lead σ2 o = o) -> forall o, o ∈ outs -> lead σ2 o ∈ av ++ outs) by (intros σ2 Hl o Ho; rewrite Hl by done; apply elem_of_app; by right).
    rewrite mark_node_unfold in H. cbn zeta in H. destruct k; try done.
    - destruct (mark_subs Gamma ins _ σ) as [[ch σ1]|] eqn:E; cbn [mbind option_bind] in H; [|done]. destruct (HS _ _ eq_refl) as (S1 & S2 & S3).
      destruct (mark_exit_vars_spec choose Hch ins outs subs Hno Hino) with (σ := σ1) (σ' := σ') as (O1 & O2 & O3); [|done | done|].
      { intros r x Hr Hx. eapply Hosub; [exact Hr|]. by apply res_subkeys; auto. }
      split; [apply (Hafter σ1 σ'); assumption|]. intros o [j Hj]%elem_of_list_lookup. destruct (O3 j o Hj) as [He|[(k' & Hk' & _)|(z & Hz & He & _)]].
      + rewrite He. apply elem_of_app. right. by eapply elem_of_list_lookup_2.
      + apply elem_of_app. right. by eapply elem_of_list_lookup_2.
      + apply elem_of_app. left. rewrite <-He. rewrite (ext_lead _ _ _ _ S1 O2), (ext_lead _ _ _ _ Hs S2); [auto | | auto]. intros Hx. apply elem_of_mjoin_map in Hx as (r & Hr & Hx). by eapply Hins.
    - destruct (mark_subs (Lambda n) ins _ σ) as [[ch σ1]|] eqn:E; cbn [mbind option_bind] in H; [|done]. injection H as <-. destruct (HS _ _ eq_refl) as (S1 & S2 & S3). destruct (make_leaders_spec outs σ1 S1) as (O1 & O2 & O3). split; [eapply (Hafter σ1); eassumption|]. apply Hself. intros o Ho. by apply O3.
    - destruct (mark_subs Phi ins _ σ) as [[ch σ1]|] eqn:E; cbn [mbind option_bind] in H; [|done]. injection H as <-. destruct (HS _ _ eq_refl) as (S1 & S2 & S3). destruct (make_leaders_spec outs σ1 S1) as (O1 & O2 & O3). split; [eapply (Hafter σ1); eassumption|]. apply Hself. intros o Ho. by apply O3.
    - injection H as <-. destruct (make_leaders_spec outs σ Hs) as (O1 & O2 & O3). split; [|apply Hself; intros o Ho; by apply O3].
      assert (Hid : forall r, r ∈ subs -> forall x, x ∈ subkeys r -> lead (make_leaders outs σ) x = x). { intros r Hr x Hx. rewrite (ext_lead _ _ _ _ Hs O2) by eauto. apply lead_None, Hu. eauto. }
      cbn [dok_node]. rewrite fold_and, Forall_forall. intros r Hr. destruct Hsh as (rb & -> & _ & _ & _ & Hf). apply elem_of_list_singleton in Hr as ->. assert (Hid2 := Hid rb ltac:(left)). clear Hid.
      destruct rb as [args res ns]. unfold subkeys in Hid2. cbn [rargs rnodes] in *. cbn [dok_region]. split; [|split].
      + intros x Hx. rewrite Hid2; [done|]. apply elem_of_app. by left.
      + assert (Hown : forall x, x ∈ own ns -> lead (make_leaders outs σ) x = x). { intros x Hx. apply Hid2. apply elem_of_app. right. by apply (own_rkeys (Region args res ns)). }
        clear -Hown. revert args. induction ns as [|n ns IHn]; intros av; [done|]. cbn [avail_ok]. change (own (n :: ns)) with (nouts n ++ own ns) in Hown. split; [|apply IHn; intros x Hx; apply Hown; apply elem_of_app; by right]. intros x Hx. rewrite Hown; [|apply elem_of_app; by left]. apply elem_of_app. by right.
      + rewrite fold_and, Forall_forall. intros m Hm. rewrite Forall_forall in Hf. destruct (Hf m Hm) as [op Hkm]. pose proof (wf_region_node _ _ (Hwr _ ltac:(left)) Hm) as Hwm. destruct m as [? km ? ? ms]. cbn in Hkm. subst km. apply wf_node_unfold in Hwm as [Hsm _]. cbn in Hsm. subst ms. done.
  Qed.
  Lemma visit_fresh args res ns : good_region (Region args res ns) -> (forall n, n ∈ ns -> is_simple n = false -> nmarks n (mark_node choose n) /\ nfmarks n (mark_node choose n)) ->
    forall rest pre tops σ σ', ns = pre ++ rest -> SW σ -> pre_region σ (Region args res ns) -> tops_ok ns σ pre tops -> unmarked σ (mjoin (map (fun n => (ndefs n).*1) rest)) -> dok_region (lead σ) (Region args [] pre) ->
      visit_nodes choose ns (map (fun n => (n, mark_node choose n)) rest) tops σ = Some σ' -> dok_region (lead σ') (Region args [] ns).
  Proof using Hch.
    intros Hg IH. pose proof (fun n => good_nodes _ _ _ n Hg) as Hgn. pose proof (good_ids _ _ _ Hg) as Hids. destruct (good_own _ _ _ Hg) as [Hown Hargs]. destruct Hg as ((Hw & _) & Hk & _). cbn [rargs] in Hk. unfold rkeys in Hk. rewrite rkeys_eq in Hk. apply NoDup_app in Hk as (_ & Hka & Hkn).
    pose proof (wf_list_Forall _ _ _ Hw) as Hwn. rewrite Forall_forall in Hwn.
    induction rest as [|n rest IHr]; intros pre tops σ σ' Ens Hs Hp Ht Hu Hj H; cbn [map visit_nodes] in H.
    { injection H as <-. rewrite app_nil_r in Ens. by subst pre. }
    change (mjoin (map (fun n => (ndefs n).*1) (n :: rest))) with ((ndefs n).*1 ++ mjoin (map (fun n => (ndefs n).*1) rest)) in Hu.
    assert (Hn : n ∈ ns) by (rewrite Ens; apply elem_of_app; right; left).
    assert (Hpre : forall m, m ∈ pre -> m ∈ ns) by (intros m Hm; rewrite Ens; apply elem_of_app; by left).
    assert (Hkeys : forall m, m ∈ ns -> m <> n -> forall x, x ∈ (ndefs m).*1 -> x ∉ (ndefs n).*1). { intros m Hm Hne x Hx Hx'. apply Hne. by eapply (mjoin_unique (fun n => (ndefs n).*1)). }
    assert (Hkargs : forall x, x ∈ args -> x ∉ (ndefs n).*1). { intros x Hx Hx'. apply (Hka x Hx). apply elem_of_mjoin_map. eauto. }
    assert (Hnpre : n ∉ pre). { intros Hin. rewrite Ens in Hids. change (map nid (pre ++ n :: rest)) with (nid <$> (pre ++ n :: rest)) in Hids. rewrite fmap_app in Hids. apply NoDup_app in Hids as (_ & Hd & _). apply (Hd (nid n)); [apply elem_of_list_fmap; eauto | rewrite fmap_cons; left]. }
    assert (Hnrest : n ∉ rest). { intros Hin. rewrite Ens in Hids. change (map nid (pre ++ n :: rest)) with (nid <$> (pre ++ n :: rest)) in Hids. rewrite fmap_app in Hids. apply NoDup_app in Hids as (_ & _ & Hd). rewrite fmap_cons in Hd. apply NoDup_cons in Hd as [Hd _]. apply Hd. apply elem_of_list_fmap; eauto. }
    assert (Hkpre : forall x, x ∈ args ++ own pre -> x ∉ (ndefs n).*1).
    { intros x Hx. apply elem_of_app in Hx as [Hx|Hx]; [auto|]. apply elem_of_own in Hx as (m & Hm & Hx). apply (Hkeys m); [auto | by intros -> | by apply nouts_nkeys]. }
    pose proof Hw as Hw2. rewrite Ens in Hw2. apply wf_list_app in Hw2 as [Hwp Hwr]. cbn [wf_list] in Hwr. destruct Hwr as (Hin & _ & _). rewrite Forall_forall in Hin.
    assert (Hins : forall x, x ∈ nins n -> x ∉ (ndefs n).*1) by auto.
    assert (Hinp : forall m x, m ∈ pre -> x ∈ nins m -> x ∉ (ndefs n).*1). { intros m x Hm Hx. apply Hkpre. pose proof (wf_list_scope _ _ _ Hwp) as Hsc. rewrite Forall_forall in Hsc. specialize (Hsc m Hm). rewrite Forall_forall in Hsc. auto. }
    pose proof Hp as [Hcons Hpn]. rewrite Forall_forall in Hcons. rewrite fold_and, Forall_forall in Hpn.
    assert (Houtk : forall x, x ∈ nouts n -> x ∈ (ndefs n).*1) by (intros x; apply nouts_nkeys).
    assert (Hinpo : forall m x, m ∈ pre -> x ∈ nins m -> x ∉ nouts n) by (intros m x Hm Hx Hx'; eapply Hinp; eauto). assert (Hinso : forall x, x ∈ nins n -> x ∉ nouts n) by (intros x Hx Hx'; by eapply Hins, Houtk).
    assert (Hun : unmarked σ (ndefs n).*1) by (intros x Hx; apply Hu; apply elem_of_app; by left). assert (Huo : forall o, o ∈ nouts n -> cmap σ !! o = None) by auto.
    assert (Hmk : forall m o, m ∈ ns -> o ∈ nouts m -> marked σ o -> m ∈ pre).
    { intros m o Hm Ho [i Hi]. rewrite Ens in Hm. apply elem_of_app in Hm as [Hm|Hm]; [done|]. rewrite Hu in Hi; [done|]. apply elem_of_cons in Hm as [->|Hm]; apply elem_of_app; [left; auto | right]. apply elem_of_mjoin_map. exists m. split; [done | by apply nouts_nkeys]. }
    assert (Hav : forall x, x ∈ args ++ own pre -> lead σ x ∈ args ++ own pre). { cbn [dok_region] in Hj. destruct Hj as (D1 & D2 & _). by apply avail_all. }
    assert (Hstep : forall σ1 tops1, SW σ1 -> ext σ σ1 (ndefs n).*1 -> (is_simple n = true -> cons (lead σ1) ns n) -> pre_node σ1 n -> tops_ok ns σ1 (pre ++ [n]) tops1 ->
      dok_node (lead σ1) n -> (forall x, x ∈ nouts n -> lead σ1 x ∈ (args ++ own pre) ++ nouts n) ->
      visit_nodes choose ns (map (fun n => (n, mark_node choose n)) rest) tops1 σ1 = Some σ' -> dok_region (lead σ') (Region args [] ns)).
    { intros σ1 tops1 W1 E1 Hc1 Hpn1 Ht1 Hdn Hdo Hv. apply (IHr (pre ++ [n]) tops1 σ1 σ').
      - by rewrite <-app_assoc.
      - done.
      - cbn [pre_region]. rewrite fold_and, !Forall_forall. split; intros m Hm.
        + intros Hsm. destruct (decide (nid m = nid n)) as [He|He]; [pose proof (nid_unique _ _ _ Hids Hm Hn He); subst m; auto|]. eapply cons_ext; [|by apply Hcons]. intros x Hx. eapply ext_lead; [done | exact E1|]. apply (Hkeys m Hm); [by intros -> | by apply nouts_nkeys].
        + destruct (decide (nid m = nid n)) as [He|He]; [pose proof (nid_unique _ _ _ Hids Hm Hn He); subst m; auto|]. eapply (pre_ext σ σ1); [auto | | by apply Hpn]. eapply ext_agc; [done | exact E1|]. apply (Hkeys m Hm). by intros ->.
      - done.
      - intros x Hx. rewrite (proj2 E1); [apply Hu; apply elem_of_app; by right|]. apply elem_of_mjoin_map in Hx as (m & Hm & Hx). apply (Hkeys m); [rewrite Ens; apply elem_of_app; right; by right | by intros -> | done].
      - assert (Hag : agree (lead σ) (lead σ1) (subkeys (Region args [] pre))).
        { intros x Hx. eapply ext_lead; [done | exact E1|]. unfold subkeys in Hx. cbn [rargs] in Hx. apply elem_of_app in Hx as [Hx|Hx]; [auto|]. apply rkeys_iff in Hx as (m & Hm & Hx). apply (Hkeys m); [auto | by intros -> | done]. }
        apply (proj2 (dext (lead σ) (lead σ1)) _ Hag) in Hj. cbn [dok_region] in Hj |- *. destruct Hj as (D1 & D2 & D3). split; [done|]. split.
        + apply avail_app. split; [done|]. cbn [avail_ok]. done.
        + rewrite fold_and in D3 |- *. apply Forall_app. split; [done|]. by constructor.
      - exact Hv. }
    assert (Htops : forall σ1, ext σ σ1 (ndefs n).*1 -> tops_ok ns σ1 (pre ++ [n]) tops).
    { intros σ1 He m' Hm'. destruct (Ht m' Hm') as (H1 & H2 & H3 & H4). split; [apply elem_of_app; by left|]. split; [done|]. split; [done|]. intros o Ho. rewrite (ext_lead _ _ _ _ Hs He); [auto|]. apply (Hkeys m'); [done | by intros -> | by apply nouts_nkeys]. }
    destruct (is_simple n) eqn:Esi.
    - assert (Hpnn : forall σ1, pre_node σ1 n) by (intros σ1; destruct n as [? [] ? ? ?]; done).
      assert (Hdn : forall σ1, dok_node (lead σ1) n). { intros σ1. pose proof (Hwn n Hn) as Hwn'. destruct n as [? [] ? ? subs]; try done; apply wf_node_unfold in Hwn' as [Hsh _]; cbn in Hsh; [subst subs | destruct Hsh as [-> _]]; done. }
      assert (Hfo : forall σ1, first σ1 pre n -> forall x, x ∈ nouts n -> lead σ1 x ∈ (args ++ own pre) ++ nouts n).
      { intros σ1 Hfi x Hx. destruct (Hfi x Hx) as [->|(m & Hm & Hl)]; apply elem_of_app; [by right | left]. apply elem_of_app. right. apply elem_of_own. eauto. }
      assert (Hcs : forall m, m ∈ ns -> is_simple m = true -> cons (lead σ) ns m) by auto.
      destruct (nins n) as [|x0 l0] eqn:Ein.
      + destruct (mark_top ns n tops σ) as [[tops1 σ1]|] eqn:E; cbn [mbind option_bind] in H; [|done]. rewrite <-Ein in *. destruct (mark_top_spec ns Hown Hids σ σ1 pre tops tops1 n) as (V1 & V2 & V3 & V4); try done.
        apply (Hstep σ1 tops1); try done; [by eapply ext_weaken | intros _; by eapply visited_cons |]. apply Hfo. apply (mark_top_first ns Hown σ σ1 pre tops tops1 n); assumption.
      + destruct (mark_simple choose ns n σ) as [σ1|] eqn:E; cbn [mbind option_bind] in H; [|done]. rewrite <-Ein in *. destruct (mark_simple_spec choose Hch ns Hown Hids σ σ1 pre n) as (V1 & V2 & V3); try done.
        assert (V2' : ext σ σ1 (ndefs n).*1) by (by eapply ext_weaken). apply (Hstep σ1 tops); try done; [intros _; by eapply visited_cons | by apply Htops |]. apply Hfo. apply (mark_simple_first choose Hch ns Hown Hids σ σ1 pre n); assumption.
    - destruct (mark_node choose n σ) as [σ1|] eqn:E; cbn [mbind option_bind] in H; [|done]. destruct (IH n Hn Esi) as [IH1 IH2]. destruct (IH1 σ σ1 Hs (Hpn n Hn) E) as (V1 & V2 & V3 & V4).
      destruct (IH2 σ σ1 (args ++ own pre) Hs Hun ltac:(auto) E) as [D1 D2]. apply (Hstep σ1 tops); try done. by apply Htops.
  Qed.
  Lemma fresh_ok : (forall n, good_node n -> is_simple n = false -> nkind n <> Theta -> (forall r, r ∈ nsubs n -> theta_free r) -> (forall x, x ∈ nins n -> x ∉ (ndefs n).*1) -> nfmarks n (mark_node choose n)) /\ (forall r, good_region r -> theta_free r -> fmarks r (mark_region choose r)).
  Proof using Hch.
    apply tree_ind.
    - intros id k ins outs subs IH Hg Hs Hk Htf Hi. rewrite Forall_forall in IH. apply mark_node_fresh; [done | done | done | done|]. intros r Hr. pose proof (good_subs _ _ Hg Hr) as Hgr. split; [by apply (mark_ok choose Hch) | apply (IH r Hr); auto].
    - intros args res ns IH Hg Htf σ σ' Hs Hu Ha H. rewrite Forall_forall in IH. rewrite mark_region_unfold in H. pose proof Hg as ((Hw & _) & Hk & _).
      pose proof (visit_fresh args res ns Hg) as HV. apply HV with (rest := ns) (pre := @nil node) (tops := @nil node) (σ := σ) (σ' := σ') in H; clear HV; try done.
      + intros n Hn Hsi. assert (Hix : forall x, x ∈ nins n -> x ∉ (ndefs n).*1).
        { intros x Hx Hx'. cbn [rargs] in Hk. unfold rkeys in Hk. rewrite rkeys_eq in Hk. apply NoDup_app in Hk as (_ & Hka & Hkn).
          apply elem_of_list_split in Hn as (a & b & ->). apply wf_list_app in Hw as [_ Hw]. cbn [wf_list] in Hw. destruct Hw as (Hin & _). rewrite Forall_forall in Hin. specialize (Hin x Hx). rewrite mjoin_map_app in Hka, Hkn.
          change (mjoin (map (fun n => (ndefs n).*1) (n :: b))) with ((ndefs n).*1 ++ mjoin (map (fun n => (ndefs n).*1) b)) in *. apply elem_of_app in Hin as [Hin|Hin].
          - apply (Hka x Hin). apply elem_of_app. right. apply elem_of_app. by left.
          - apply NoDup_app in Hkn as (_ & Hd & _). apply (Hd x); [|apply elem_of_app; by left]. apply elem_of_own in Hin as (m & Hm & Hin). apply elem_of_mjoin_map. exists m. split; [done | by apply nouts_nkeys]. }
        split; [apply (mark_ok choose Hch); [by eapply good_nodes | done | done]|]. apply (IH n Hn); [by eapply good_nodes | done | | | done].
        * eapply Htf; [constructor | done].
        * intros r Hr. by eapply (theta_free_sub (Region args res ns)).
      + by apply (pre_fresh σ).
      + by intros m ?%elem_of_nil.
      + by rewrite rkeys_eq in Hu.
  Qed.
End Fresh.
