(** Marking a module without loops: it succeeds, and equal computations end up in one set. *)
From stdpp Require Import base list list_numbers fin_sets gmap.
From Verif.Rvsdg Require Import Model Spec Sem Wf WfFacts Args Divert Local.
From Verif.Dne Require Import Model ProofsShrink.
From Verif.Ivr Require Import Model ProofsMain.
From Verif.Cne Require Import Model Spec ProofsSem ProofsState ProofsPart Just JustView Pre ProofsSimple ProofsOuts ProofsSubs ProofsMain ProofsFresh TotalSimple TotalOuts.

Definition cargs (s : oid -> oid) (k : kind) (ins : list oid) (r : region) : Prop := forall i j a b x y, rargs r !! i = Some a -> rargs r !! j = Some b ->
  arg_origin k ins r i = Some x -> arg_origin k ins r j = Some y -> s x = s y -> s a = s b.
Definition cexit (s : oid -> oid) (outs : list oid) (subs : list region) : Prop := forall k k' o o', outs !! k = Some o -> outs !! k' = Some o' -> cong_res s subs k k' -> nonarg subs k -> nonarg subs k' -> s o = s o'.
Definition cnode (s : oid -> oid) (n : node) : Prop := nkind n <> Delta -> (forall r, r ∈ nsubs n -> cargs s (nkind n) (nins n) r) /\ (nkind n = Gamma -> cexit s (nouts n) (nsubs n)).
Definition comp (s : oid -> oid) (r : region) : Prop := forall r', visited_region r r' -> csimple s (rnodes r') /\ forall n, n ∈ rnodes r' -> cnode s n.
Lemma vis_cases r r' : visited_region r r' <-> r' = r \/ exists n q, n ∈ rnodes r /\ nkind n <> Delta /\ q ∈ nsubs n /\ visited_region q r'.
Proof.
  split.
  - induction 1 as [|r' n q Hr IH Hn Hk Hq]; [by left|]. right. destruct IH as [->|(m & p & Hm & Hkm & Hp & Hv)]; [exists n, q; repeat (split; [done|]); constructor | exists m, p; repeat (split; [done|]); by eapply vis_sub].
  - intros [->|(n & q & Hn & Hk & Hq & Hv)]; [constructor|]. induction Hv as [|r' m p Hv IH Hm Hkm Hp]; [eapply vis_sub; [constructor | done | done | done] | by eapply vis_sub].
Qed.
Lemma vis_reg r r' : visited_region r r' -> reg r r'.
Proof. induction 1; [constructor | by eapply reg_sub]. Qed.
Lemma comp_cases s r : comp s r <-> csimple s (rnodes r) /\ forall n, n ∈ rnodes r -> cnode s n /\ (nkind n <> Delta -> forall q, q ∈ nsubs n -> comp s q).
Proof.
  split.
  - intros H. destruct (H r ltac:(constructor)) as [H1 H2]. split; [done|]. intros n Hn. split; [auto|]. intros Hk q Hq r' Hr'. apply H. apply vis_cases. right. eauto 6.
  - intros [H1 H2] r' [->|(n & q & Hn & Hk & Hq & Hv)]%vis_cases; [split; [done|]; intros n Hn; by apply H2|]. destruct (H2 n Hn) as [_ H3]. by apply (H3 Hk q Hq).
Qed.
Lemma csimple_ext s s' ns : (forall m, m ∈ ns -> agree s s' (nins m) /\ agree s s' (nouts m)) -> csimple s ns -> csimple s' ns.
Proof. intros Ha H m n Hm Hn Hs Hk He. destruct (Ha m Hm) as [A1 A2], (Ha n Hn) as [B1 B2]. rewrite (agree_fmap _ _ _ A1), (agree_fmap _ _ _ B1) in He. rewrite (agree_fmap _ _ _ A2), (agree_fmap _ _ _ B2). by apply H. Qed.
Lemma cargs_ext s s' k ins r : agree s s' ins -> agree s s' (rargs r) -> cargs s k ins r -> cargs s' k ins r.
Proof.
  intros A1 A2 H i j a b x y Ha Hb Hx Hy He. rewrite (A1 x), (A1 y) in He by (by eapply arg_origin_ins). rewrite (A2 a), (A2 b) by (by eapply elem_of_list_lookup_2). by eapply H.
Qed.
Lemma cong_res_ext s s' subs k k' : (forall r, r ∈ subs -> agree s s' (rres r)) -> cong_res s' subs k k' -> cong_res s subs k k'.
Proof. intros Ha H r Hr. destruct (H r Hr) as (x & y & H1 & H2 & H3). exists x, y. split; [done|]. split; [done|]. rewrite (Ha r Hr x), (Ha r Hr y) in H3 by (by eapply elem_of_list_lookup_2). done. Qed.
Lemma cexit_ext s s' outs subs : agree s s' outs -> (forall r, r ∈ subs -> agree s s' (rres r)) -> cexit s outs subs -> cexit s' outs subs.
Proof. intros A1 A2 H k k' o o' Ho Ho' Hc Hn Hn'. rewrite (A1 o), (A1 o') by (by eapply elem_of_list_lookup_2). eapply H; [exact Ho | exact Ho' | by eapply cong_res_ext | done | done]. Qed.
Lemma cnode_ext s s' n : agree s s' (nins n) -> agree s s' (nouts n) -> (forall r, r ∈ nsubs n -> agree s s' (rargs r) /\ agree s s' (rres r)) -> cnode s n -> cnode s' n.
Proof. intros A1 A2 A3 H Hk. destruct (H Hk) as [H1 H2]. split; [intros r Hr; apply (cargs_ext s); [done | by apply A3 | auto] | intros Hg; apply (cexit_ext s); [done | intros r Hr; by apply A3 | auto]]. Qed.
Lemma reg_keys r r' : reg r r' -> forall x, x ∈ subkeys r' -> x ∈ subkeys r.
Proof. induction 1 as [|r' n q Hr IH Hn Hq]; [done|]. intros x Hx. apply IH. apply subkeys_def. destruct r' as [args res ns]. apply rkeys_iff. exists n. split; [done|]. by eapply subkeys_nkeys. Qed.
Lemma comp_ext s s' r : wf_region r -> agree s s' (subkeys r) -> comp s r -> comp s' r.
Proof.
  intros Hw Ha H r' Hv. pose proof (vis_reg _ _ Hv) as Hreg. destruct (H r' Hv) as [H1 H2]. pose proof (reg_wf _ _ Hw Hreg) as Hwr. assert (Ha' : agree s s' (subkeys r')) by (intros x Hx; apply Ha; by eapply reg_keys). clear Ha H.
  assert (Hi : forall n, n ∈ rnodes r' -> agree s s' (nins n)).
  { intros n Hn x Hx. destruct r' as [args res ns]. destruct Hwr as [Hwl _]. pose proof (wf_list_scope _ _ _ Hwl) as Hsc. rewrite Forall_forall in Hsc. specialize (Hsc n Hn). rewrite Forall_forall in Hsc. apply Ha'. unfold subkeys. cbn [rargs]. specialize (Hsc x Hx). apply elem_of_app in Hsc as [?|?]; apply elem_of_app; [by left | right; by apply (own_rkeys (Region args res ns))]. }
  assert (Ho : forall n, n ∈ rnodes r' -> agree s s' (nouts n)). { intros n Hn x Hx. apply Ha'. apply subkeys_def. destruct r' as [args res ns]. apply rkeys_iff. exists n. split; [done | by apply nouts_nkeys]. }
  assert (Hsub : forall n q x, n ∈ rnodes r' -> q ∈ nsubs n -> x ∈ subkeys q -> s' x = s x). { intros n q x Hn Hq Hx. apply Ha'. apply subkeys_def. destruct r' as [args res ns]. apply rkeys_iff. exists n. split; [done | by eapply subkeys_nkeys]. }
  split; [eapply csimple_ext; [|exact H1]; auto|]. intros n Hn. eapply cnode_ext; [auto | auto | | by apply H2]. intros q Hq. split; intros x Hx; apply (Hsub n q x Hn Hq); [by apply subkeys_arg|]. apply res_subkeys; [|done]. eapply reg_wf; [exact Hwr|]. eapply reg_sub; [constructor | done | done].
Qed.

Section Total.
  Context (choose : cstate -> list nat -> option nat) (Hch : forall σ l, match choose σ l with Some x => x ∈ l | None => l = [] end).
  Lemma Hch1 σ l x : choose σ l = Some x -> x ∈ l.
  Proof using Hch. intros H. pose proof (Hch σ l) as Hc. by rewrite H in Hc. Qed.
  Definition tmarks (r : region) (f : cstate -> option cstate) : Prop := forall σ, SW σ -> unmarked σ (rdefs r).*1 -> (forall a, a ∈ rargs r -> marked σ a) ->
    exists σ', f σ = Some σ' /\ (forall x, x ∈ own (rnodes r) -> marked σ' x) /\ comp (lead σ') r.
  Definition sub_result (k : kind) (ins : list oid) (σ : cstate) (r : region) : Prop := (forall x, x ∈ rargs r ++ own (rnodes r) -> marked σ x) /\ comp (lead σ) r /\ cargs (lead σ) k ins r.
  Lemma sub_result_ext k ins σ σ' r : wf_region r -> agc σ σ' (subkeys r) -> agc σ σ' ins -> sub_result k ins σ r -> sub_result k ins σ' r.
  Proof using.
    clear. intros Hw A1 A2 (H1 & H2 & H3). split; [|split].
    - intros x Hx. unfold marked. destruct (A1 x) as [-> _]; [|by apply H1]. apply elem_of_app in Hx as [Hx|Hx]; [by apply subkeys_arg | apply subkeys_def; by apply own_rkeys].
    - eapply comp_ext; [done | by eapply agc_agree | done].
    - eapply cargs_ext; [by eapply agc_agree | | done]. eapply agc_agree. eapply agc_sub; [|exact A1]. intros x. apply subkeys_arg.
  Qed.
  Lemma mark_sub_total k ins r f ch σ : wf_region r -> NoDup (subkeys r) -> (forall x, x ∈ ins -> x ∉ subkeys r) -> marks r f -> tmarks r f -> SW σ -> unmarked σ (subkeys r) -> (forall x, x ∈ ins -> marked σ x) ->
    exists ch' σ', mark_sub k ins (Some (ch, σ)) (r, f) = Some (ch', σ') /\ sub_result k ins σ' r.
  Proof using.
    clear. intros Hw Hn Hi Hm Hf Hs Hu Hmi. cbn [mark_sub mbind option_bind fst snd]. destruct (sub_wf r Hn) as [Hna Hnd]. assert (Hud : unmarked σ (rdefs r).*1) by (intros x Hx; apply Hu; by apply subkeys_def). destruct (decide (rargs r = [])) as [Hnil|Hne].
    - destruct (Hf σ Hs Hud) as (σ1 & E & H1 & H2); [rewrite Hnil; by intros a ?%elem_of_nil|]. exists ch, σ1. rewrite Hnil, E. split; [done|]. split; [by rewrite Hnil|]. split; [done|]. intros i j a b. by rewrite Hnil.
    - assert (Hu' : forall a, a ∈ rargs r -> cmap σ !! a = None) by (intros a Ha; apply Hu; by apply subkeys_arg).
      destruct (sub_keys k ins r σ) as [keys|] eqn:Ek.
      2:{ exfalso. unfold sub_keys in Ek. assert (Hall : is_Some (mapM (fun i => match arg_origin k ins r i with Some x => cmap σ !! x | None => Some (length (leads σ) + i) end) (seq 0 (length (rargs r))))); [|rewrite Ek in Hall; by destruct Hall].
          apply mapM_is_Some. apply Forall_forall. intros i _. cbn. destruct (arg_origin k ins r i) as [x|] eqn:Ex; [|by eexists]. apply Hmi. by eapply arg_origin_ins. }
      pose proof (sub_keys_spec _ _ _ _ _ Ek) as [Hlen Hkeys]. destruct (partition_total (rargs r) keys σ Hs Hna Hlen Hu') as (c & σ1 & Ep & Hpc). destruct (partition_spec _ _ _ _ _ Hs Hna Hlen Ep) as (P1 & P2 & P3 & P4).
      assert (Ha : forall a, a ∈ rargs r -> marked σ1 a). { intros a [i Hia]%elem_of_list_lookup. by destruct (P4 i a Hia) as (Q1 & _). }
      assert (Hud1 : unmarked σ1 (rdefs r).*1). { intros x Hx. rewrite (proj2 P2); [auto|]. intros Hx'. by apply (Hnd x). }
      destruct (Hf σ1 P1 Hud1 Ha) as (σ2 & E & H1 & H2).
      assert (Hp1 : pre_region σ1 r) by (apply pre_fresh; done). destruct (Hm σ1 σ2 P1 Hp1 E) as (M1 & M2 & _ & _).
      assert (Hc : c = true). { destruct c; [done|]. specialize (P3 eq_refl). subst σ1. destruct (rargs r) as [|a l] eqn:Er; [done|]. destruct (Ha a ltac:(left)) as [i Hmk]. rewrite (Hu' a ltac:(left)) in Hmk. done. }
      subst c. exists true, σ2.
      assert (HE : (keys0 ← Some keys; '(c, σ3) ← partition (rargs r) keys0 σ; if (c : bool) then σ2 ← f σ3; Some (true, σ2) else Some (ch, σ3)) = Some (true, σ2)) by (cbn [mbind option_bind]; rewrite Ep; cbn [mbind option_bind]; by rewrite E).
      split; [by destruct (rargs r)|].
      assert (Hk1 : forall x, x ∈ rargs r -> x ∉ (rdefs r).*1) by (intros x Hx Hx'; by apply (Hnd x)).
      assert (Hk2 : forall x, x ∈ ins -> lead σ2 x = lead σ x). { intros x Hx. rewrite (ext_lead _ _ _ _ P1 M2), (ext_lead _ _ _ _ Hs P2); [done | |]; intros Hx'; apply (Hi x Hx); [by apply subkeys_arg | by apply subkeys_def]. }
      split; [|split; [done|]].
      + intros x [Hx|Hx]%elem_of_app; [|auto]. eapply ext_marked; [exact M2 | auto | auto].
      + intros i j a b x y Hia Hjb Hx Hy He. rewrite !(ext_lead _ _ _ _ P1 M2) by (apply Hk1; by eapply elem_of_list_lookup_2). eapply Hpc; [exact Hia | exact Hjb|]. pose proof (arg_origin_ins _ _ _ _ _ Hx) as Hxi. pose proof (arg_origin_ins _ _ _ _ _ Hy) as Hyi. rewrite !Hk2 in He by done.
        destruct (Hkeys i (lookup_lt_Some _ _ _ Hia)) as (ki & Hki & Hi'), (Hkeys j (lookup_lt_Some _ _ _ Hjb)) as (kj & Hkj & Hj'). rewrite Hx in Hi'. rewrite Hy in Hj'. pose proof (lead_inj _ _ _ Hs (Hmi x Hxi) (Hmi y Hyi) He). congruence.
  Qed.
  Lemma mark_subs_total k ins l d ch σ : NoDup (mjoin (map subkeys (d ++ l))) -> (forall r, r ∈ d ++ l -> wf_region r) -> (forall r x, r ∈ d ++ l -> x ∈ ins -> x ∉ subkeys r) ->
    (forall r, r ∈ l -> marks r (mark_region choose r) /\ tmarks r (mark_region choose r)) -> SW σ -> (forall r, r ∈ d -> sub_result k ins σ r) -> (forall r, r ∈ l -> unmarked σ (subkeys r)) -> (forall x, x ∈ ins -> marked σ x) ->
    exists ch' σ', foldl (mark_sub k ins) (Some (ch, σ)) (map (fun r => (r, mark_region choose r)) l) = Some (ch', σ') /\ forall r, r ∈ d ++ l -> sub_result k ins σ' r.
  Proof using.
    clear. revert d ch σ. induction l as [|r l IH]; intros d ch σ Hn Hw Hi Hm Hs Hd Hl Hmi; cbn [map foldl].
    - exists ch, σ. by rewrite app_nil_r.
    - assert (Hin : r ∈ d ++ r :: l) by (apply elem_of_app; right; left). pose proof (NoDup_mjoin_elem _ _ _ Hn Hin) as Hnr. pose proof (Hl r ltac:(left)) as Hu. destruct (Hm r ltac:(left)) as [Hm1 Hm2].
      destruct (mark_sub_total k ins r _ ch σ (Hw r Hin) Hnr (fun x => Hi r x Hin) Hm1 Hm2 Hs Hu Hmi) as (ch1 & σ1 & E & Hres). rewrite E.
      assert (Hpr : pre_region σ r) by (apply pre_fresh; intros x Hx; apply Hu; by apply subkeys_def). assert (Hfr : fresh_args σ r) by (intros a Ha; apply Hu; by apply subkeys_arg).
      destruct (mark_sub_spec k ins r _ (Hw r Hin) Hnr (fun x => Hi r x Hin) Hm1 _ _ _ _ Hs Hpr (or_introl Hfr) E) as (G1 & G2 & _ & _ & _ & _).
      assert (Hdis : forall r', r' ∈ d ++ l -> forall x, x ∈ subkeys r' -> x ∉ subkeys r).
      { intros r' Hr' x Hx Hx'. rewrite mjoin_map_app in Hn. change (mjoin (map subkeys (r :: l))) with (subkeys r ++ mjoin (map subkeys l)) in Hn. apply NoDup_app in Hn as (_ & Hn1 & Hn2). apply NoDup_app in Hn2 as (_ & Hn2 & _). apply elem_of_app in Hr' as [Hr'|Hr'].
        - apply (Hn1 x); [apply elem_of_mjoin_map; eauto | apply elem_of_app; by left].
        - apply (Hn2 x Hx'). apply elem_of_mjoin_map. eauto. }
      assert (Hwd : forall r', r' ∈ d -> wf_region r') by (intros r' Hr'; apply Hw; apply elem_of_app; by left). assert (Hii : forall x, x ∈ ins -> x ∉ subkeys r) by (intros x Hx; by apply Hi).
      rewrite cons_middle, app_assoc in Hn, Hw, Hi |- *. apply (IH (d ++ [r]) ch1 σ1); [done | done | done | intros; apply Hm; by right | done | | |].
      + intros r' Hr'. apply elem_of_app in Hr' as [Hr'|Hr'%elem_of_list_singleton]; [|by subst r']. eapply (sub_result_ext k ins σ); [auto | | | auto]; (eapply ext_agc; [done | exact G2|]); [apply Hdis; apply elem_of_app; by left | done].
      + intros r' Hr' x Hx. rewrite (proj2 G2); [eapply Hl; [by right | exact Hx]|]. eapply Hdis; [|exact Hx]. apply elem_of_app. by right.
      + intros x Hx. eapply ext_marked; [exact G2 | auto | auto].
  Qed.
  Definition ntmarks (n : node) (f : cstate -> option cstate) : Prop := forall σ, SW σ -> unmarked σ (ndefs n).*1 -> (forall x, x ∈ nins n -> marked σ x) ->
    exists σ', f σ = Some σ' /\ (forall o, o ∈ nouts n -> marked σ' o) /\ cnode (lead σ') n /\ (nkind n <> Delta -> forall r, r ∈ nsubs n -> comp (lead σ') r).
  Lemma mark_node_total n : good_node n -> is_simple n = false -> nkind n <> Theta -> (nkind n = Gamma -> forall r c, r ∈ nsubs n -> rargs r !! 0 = Some c -> c ∉ rres r) -> (forall x, x ∈ nins n -> x ∉ (ndefs n).*1) ->
    (forall r, r ∈ nsubs n -> marks r (mark_region choose r) /\ tmarks r (mark_region choose r)) -> ntmarks n (mark_node choose n).
  Proof using Hch.
    destruct n as [id k ins outs subs]. intros Hg Hns Hk Hcon Hi IH σ Hs Hu Hmi. cbn [nins nsubs nkind nouts] in *. pose proof Hg as (Hw & Hn & _). unfold nkeys in Hn. rewrite nkeys_eq in Hn. apply NoDup_app in Hn as (Hno & Hod & Hnm).
    change (mjoin (map (fun r => rargs r ++ (rdefs r).*1) subs)) with (mjoin (map subkeys subs)) in *. apply wf_node_unfold in Hw as [Hsh Hwr]. rewrite Forall_forall in Hwr.
    assert (Hsub : forall r x, r ∈ subs -> x ∈ subkeys r -> x ∈ (ndefs (Node id k ins outs subs)).*1) by (intros r x Hr Hx; by eapply (subkeys_nkeys (Node id k ins outs subs))).
    assert (Hosub : forall r x, r ∈ subs -> x ∈ subkeys r -> x ∉ outs). { intros r x Hr Hx Ho. apply (Hod x Ho). apply elem_of_mjoin_map. eauto. }
    assert (Hins : forall r x, r ∈ subs -> x ∈ ins -> x ∉ subkeys r) by (intros r x Hr Hx Hx'; by eapply Hi, Hsub).
    assert (Hout : forall x, x ∈ outs -> x ∈ (ndefs (Node id k ins outs subs)).*1) by (intros x Hx; by apply (nouts_nkeys (Node id k ins outs subs))).
    assert (Hino : forall x, x ∈ ins -> x ∉ outs) by (intros x Hx Hx'; by eapply Hi, Hout).
    assert (HS : exists ch σ1, mark_subs k ins (map (fun r => (r, mark_region choose r)) subs) σ = Some (ch, σ1) /\ SW σ1 /\ ext σ σ1 (mjoin (map subkeys subs)) /\ forall r, r ∈ subs -> sub_result k ins σ1 r).
    { destruct (mark_subs_total k ins subs [] false σ) as (ch & σ1 & E & H1); [done | done | intros; eapply Hins; eauto | done | done | by intros r ?%elem_of_nil | intros r Hr x Hx; apply Hu; eauto | done|]. exists ch, σ1. split; [done|].
      assert (HA : SW σ1 /\ ext σ σ1 (mjoin (map subkeys subs)) /\ subs_ok k ins σ1 ([] ++ subs)); [|destruct HA as (A1 & A2 & _); done].
      eapply (mark_subs_fold choose k ins subs []); [done | done | intros; eapply Hins; eauto | intros; by apply IH | done | by intros r ?%elem_of_nil | | exact E].
      intros r Hr. split; [apply pre_fresh; intros x Hx; apply Hu; eapply Hsub; [exact Hr | by apply subkeys_def] | left; intros a Ha; apply Hu; eapply Hsub; [exact Hr | by apply subkeys_arg]]. }
    assert (Hmout : forall σ1, ext σ σ1 (mjoin (map subkeys subs)) -> forall o, o ∈ outs -> cmap σ1 !! o = None). { intros σ1 He o Ho. rewrite (proj2 He); [apply Hu; auto | by apply Hod]. }
    assert (Hmins : forall σ1, ext σ σ1 (mjoin (map subkeys subs)) -> forall o, o ∈ ins -> marked σ1 o). { intros σ1 He o Ho. eapply ext_marked; [exact He | | auto]. intros Hx. apply elem_of_mjoin_map in Hx as (r & Hr & Hx). by eapply Hins. }
    assert (Hafter : forall σ1 σ2, SW σ1 -> ext σ1 σ2 outs -> (forall r, r ∈ subs -> sub_result k ins σ1 r) -> (forall r, r ∈ subs -> sub_result k ins σ2 r)).
    { intros σ1 σ2 W1 E1 Hok r Hr. eapply (sub_result_ext k ins σ1); [auto | | | auto]; (eapply ext_agc; [done | exact E1|]); [intros x Hx; by apply (Hosub r x Hr) | done]. }
    assert (Hfin : forall σ2, (forall r, r ∈ subs -> sub_result k ins σ2 r) -> (k = Gamma -> cexit (lead σ2) outs subs) -> cnode (lead σ2) (Node id k ins outs subs) /\ (k <> Delta -> forall r, r ∈ subs -> comp (lead σ2) r)).
    { intros σ2 H1 H2. split; [intros Hkd; split; [intros r Hr; by apply H1 | exact H2] | intros _ r Hr; by apply H1]. }
    rewrite mark_node_unfold. cbn zeta. destruct k; try done.
    - destruct HS as (ch & σ1 & E & S1 & S2 & S3). rewrite E. cbn [mbind option_bind]. cbn [shape] in Hsh. destruct Hsh as [Hne Hf]. rewrite Forall_forall in Hf.
      destruct (mark_exit_vars_total choose Hch ins outs subs Hno Hino) with (σ0 := σ1) as (σ' & E' & M1 & M2).
      { intros r x Hr Hx. eapply Hosub; [exact Hr|]. apply res_subkeys; auto. } { intros r Hr. destruct (Hf r Hr) as [F1 F2]. done. }
      { intros r j x Hr Hx Hc. eapply (Hcon eq_refl r x Hr Hc). by eapply elem_of_list_lookup_2. } { by apply Hmins. }
      { intros r x Hr Hx. apply (S3 r Hr). apply wf_region_res in Hx; auto. } { done. } { by apply Hmout. }
      destruct (mark_exit_vars_spec choose Hch1 ins outs subs Hno Hino) with (σ := σ1) (σ' := σ') as (O1 & O2 & _); [|done | done|].
      { intros r x Hr Hx. eapply Hosub; [exact Hr|]. apply res_subkeys; auto. }
      exists σ'. split; [done|]. split; [done|]. apply Hfin; [exact (Hafter σ1 σ' S1 O2 S3) | done].
    - destruct HS as (ch & σ1 & E & S1 & S2 & S3). rewrite E. cbn [mbind option_bind]. destruct (make_leaders_spec outs σ1 S1) as (O1 & O2 & O3). eexists. split; [done|]. split; [intros o Ho; by apply O3|]. apply Hfin; [exact (Hafter σ1 _ S1 O2 S3) | done].
    - destruct HS as (ch & σ1 & E & S1 & S2 & S3). rewrite E. cbn [mbind option_bind]. destruct (make_leaders_spec outs σ1 S1) as (O1 & O2 & O3). eexists. split; [done|]. split; [intros o Ho; by apply O3|]. apply Hfin; [exact (Hafter σ1 _ S1 O2 S3) | done].
    - destruct (make_leaders_spec outs σ Hs) as (O1 & O2 & O3). eexists. split; [done|]. split; [intros o Ho; by apply O3|]. split; [by intros ?|done].
  Qed.
  Lemma visit_total args res ns : good_region (Region args res ns) -> op_outputs (Region args res ns) -> (forall n, n ∈ ns -> is_simple n = false -> nmarks n (mark_node choose n) /\ ntmarks n (mark_node choose n)) ->
    forall rest pre tops σ, ns = pre ++ rest -> SW σ -> pre_region σ (Region args res ns) -> tops_ok ns σ pre tops -> unmarked σ (mjoin (map (fun n => (ndefs n).*1) rest)) -> (forall x, x ∈ args ++ own pre -> marked σ x) ->
      crep σ pre tops -> comp (lead σ) (Region args [] pre) ->
      exists σ', visit_nodes choose ns (map (fun n => (n, mark_node choose n)) rest) tops σ = Some σ' /\ (forall x, x ∈ args ++ own ns -> marked σ' x) /\ comp (lead σ') (Region args [] ns).
  Proof using Hch.
    intros Hg Hop IH. pose proof (fun n => good_nodes _ _ _ n Hg) as Hgn. pose proof (good_ids _ _ _ Hg) as Hids. destruct (good_own _ _ _ Hg) as [Hown Hargs]. destruct Hg as ((Hw & _) & Hk & _). cbn [rargs] in Hk. unfold rkeys in Hk. rewrite rkeys_eq in Hk. apply NoDup_app in Hk as (_ & Hka & Hkn).
    pose proof (wf_list_Forall _ _ _ Hw) as Hwn. rewrite Forall_forall in Hwn.
    assert (Hop' : forall m n, m ∈ ns -> n ∈ ns -> is_simple n = true -> nkind m = nkind n -> length (nins m) = length (nins n) -> length (nouts m) = length (nouts n)).
    { intros m n Hm Hn Hs Hkk Hl. eapply (Hop _ m n (reg_root _)); [done | done | done | | done]. unfold is_simple in Hs. destruct (nkind n); try done; eauto. }
    induction rest as [|n rest IHr]; intros pre tops σ Ens Hs Hp Ht Hu Hmk Hrep Hj; cbn [map visit_nodes].
    { rewrite app_nil_r in Ens. subst pre. exists σ. done. }
    change (mjoin (map (fun n => (ndefs n).*1) (n :: rest))) with ((ndefs n).*1 ++ mjoin (map (fun n => (ndefs n).*1) rest)) in Hu.
    assert (Hn : n ∈ ns) by (rewrite Ens; apply elem_of_app; right; left).
    assert (Hpre : forall m, m ∈ pre -> m ∈ ns) by (intros m Hm; rewrite Ens; apply elem_of_app; by left).
    assert (Hkeys : forall m, m ∈ ns -> m <> n -> forall x, x ∈ (ndefs m).*1 -> x ∉ (ndefs n).*1). { intros m Hm Hne x Hx Hx'. apply Hne. by eapply (mjoin_unique (fun n => (ndefs n).*1)). }
    assert (Hkargs : forall x, x ∈ args -> x ∉ (ndefs n).*1). { intros x Hx Hx'. apply (Hka x Hx). apply elem_of_mjoin_map. eauto. }
    assert (Hnpre : n ∉ pre). { intros Hin. rewrite Ens in Hids. change (map nid (pre ++ n :: rest)) with (nid <$> (pre ++ n :: rest)) in Hids. rewrite fmap_app in Hids. apply NoDup_app in Hids as (_ & Hd & _). apply (Hd (nid n)); [apply elem_of_list_fmap; eauto | rewrite fmap_cons; left]. }
    assert (Hnrest : n ∉ rest). { intros Hin. rewrite Ens in Hids. change (map nid (pre ++ n :: rest)) with (nid <$> (pre ++ n :: rest)) in Hids. rewrite fmap_app in Hids. apply NoDup_app in Hids as (_ & _ & Hd). rewrite fmap_cons in Hd. apply NoDup_cons in Hd as [Hd _]. apply Hd. apply elem_of_list_fmap; eauto. }
    assert (Hkpre : forall x, x ∈ args ++ own pre -> x ∉ (ndefs n).*1).
    { intros x Hx. apply elem_of_app in Hx as [Hx|Hx]; [auto|]. apply elem_of_own in Hx as (m & Hm & Hx). apply (Hkeys m); [auto | by intros -> | by apply nouts_nkeys]. }
    pose proof Hw as Hw2. rewrite Ens in Hw2. apply wf_list_app in Hw2 as [Hwp Hwr]. cbn [wf_list] in Hwr. destruct Hwr as (Hin & _ & _). rewrite Forall_forall in Hin.
    assert (Hins : forall x, x ∈ nins n -> x ∉ (ndefs n).*1) by auto.
    assert (Hipre : forall m x, m ∈ pre -> x ∈ nins m -> x ∈ args ++ own pre). { intros m x Hm Hx. pose proof (wf_list_scope _ _ _ Hwp) as Hsc. rewrite Forall_forall in Hsc. specialize (Hsc m Hm). rewrite Forall_forall in Hsc. auto. }
    assert (Hinp : forall m x, m ∈ pre -> x ∈ nins m -> x ∉ (ndefs n).*1) by (intros m x Hm Hx; apply Hkpre; eauto).
    pose proof Hp as [Hcons Hpn]. rewrite Forall_forall in Hcons. rewrite fold_and, Forall_forall in Hpn.
    assert (Houtk : forall x, x ∈ nouts n -> x ∈ (ndefs n).*1) by (intros x; apply nouts_nkeys).
    assert (Hinpo : forall m x, m ∈ pre -> x ∈ nins m -> x ∉ nouts n) by (intros m x Hm Hx Hx'; eapply Hinp; eauto). assert (Hinso : forall x, x ∈ nins n -> x ∉ nouts n) by (intros x Hx Hx'; by eapply Hins, Houtk).
    assert (Hun : unmarked σ (ndefs n).*1) by (intros x Hx; apply Hu; apply elem_of_app; by left). assert (Huo : forall o, o ∈ nouts n -> cmap σ !! o = None) by auto.
    assert (Hmkp : forall m o, m ∈ ns -> o ∈ nouts m -> marked σ o -> m ∈ pre).
    { intros m o Hm Ho [i Hi]. rewrite Ens in Hm. apply elem_of_app in Hm as [Hm|Hm]; [done|]. rewrite Hu in Hi; [done|]. apply elem_of_cons in Hm as [->|Hm]; apply elem_of_app; [left; auto | right]. apply elem_of_mjoin_map. exists m. split; [done | by apply nouts_nkeys]. }
    pose proof (proj1 (comp_cases _ _) Hj) as [Hcs Hcn]. cbn [rnodes] in Hcs, Hcn.
    assert (Hstep : forall σ1 tops1, SW σ1 -> ext σ σ1 (ndefs n).*1 -> (is_simple n = true -> cons (lead σ1) ns n) -> pre_node σ1 n -> tops_ok ns σ1 (pre ++ [n]) tops1 ->
      (forall x, x ∈ nouts n -> marked σ1 x) -> crep σ1 (pre ++ [n]) tops1 -> csimple (lead σ1) (pre ++ [n]) -> cnode (lead σ1) n /\ (nkind n <> Delta -> forall r, r ∈ nsubs n -> comp (lead σ1) r) ->
      exists σ', visit_nodes choose ns (map (fun n => (n, mark_node choose n)) rest) tops1 σ1 = Some σ' /\ (forall x, x ∈ args ++ own ns -> marked σ' x) /\ comp (lead σ') (Region args [] ns)).
    { intros σ1 tops1 W1 E1 Hc1 Hpn1 Ht1 Hmo Hrep1 Hcs1 Hcn1. apply (IHr (pre ++ [n]) tops1 σ1).
      - by rewrite <-app_assoc.
      - done.
      - cbn [pre_region]. rewrite fold_and, !Forall_forall. split; intros m Hm.
        + intros Hsm. destruct (decide (nid m = nid n)) as [He|He]; [pose proof (nid_unique _ _ _ Hids Hm Hn He); subst m; auto|]. eapply cons_ext; [|by apply Hcons]. intros x Hx. eapply ext_lead; [done | exact E1|]. apply (Hkeys m Hm); [by intros -> | by apply nouts_nkeys].
        + destruct (decide (nid m = nid n)) as [He|He]; [pose proof (nid_unique _ _ _ Hids Hm Hn He); subst m; auto|]. eapply (pre_ext σ σ1); [auto | | by apply Hpn]. eapply ext_agc; [done | exact E1|]. apply (Hkeys m Hm). by intros ->.
      - done.
      - intros x Hx. rewrite (proj2 E1); [apply Hu; apply elem_of_app; by right|]. apply elem_of_mjoin_map in Hx as (m & Hm & Hx). apply (Hkeys m); [rewrite Ens; apply elem_of_app; right; by right | by intros -> | done].
      - intros x Hx. rewrite own_app in Hx. change (own [n]) with (nouts n ++ own []) in Hx. change (own []) with (@nil nat) in Hx. rewrite app_nil_r in Hx. rewrite app_assoc in Hx. apply elem_of_app in Hx as [Hx|Hx]; [|auto]. eapply ext_marked; [exact E1 | auto | auto].
      - done.
      - assert (Hag : agree (lead σ) (lead σ1) (subkeys (Region args [] pre))).
        { intros x Hx. eapply ext_lead; [done | exact E1|]. unfold subkeys in Hx. cbn [rargs] in Hx. apply elem_of_app in Hx as [Hx|Hx]; [auto|]. apply rkeys_iff in Hx as (m & Hm & Hx). apply (Hkeys m); [auto | by intros -> | done]. }
        assert (Hwpr : wf_region (Region args [] pre)) by (split; [done | constructor]). apply (comp_ext _ _ _ Hwpr Hag) in Hj. apply comp_cases in Hj as [_ Hj]. cbn [rnodes] in Hj. apply comp_cases. cbn [rnodes]. split; [done|].
        intros m [Hm| ->%elem_of_list_singleton]%elem_of_app; [by apply Hj | done]. }
    assert (Htops : forall σ1, ext σ σ1 (ndefs n).*1 -> tops_ok ns σ1 (pre ++ [n]) tops).
    { intros σ1 He m' Hm'. destruct (Ht m' Hm') as (H1 & H2 & H3 & H4). split; [apply elem_of_app; by left|]. split; [done|]. split; [done|]. intros o Ho. rewrite (ext_lead _ _ _ _ Hs He); [auto|]. apply (Hkeys m'); [done | by intros -> | by apply nouts_nkeys]. }
    destruct (is_simple n) eqn:Esi.
    - assert (Hpnn : forall σ1, pre_node σ1 n) by (intros σ1; destruct n as [? [] ? ? ?]; done).
      assert (Hnosub : nsubs n = []). { pose proof (Hwn n Hn) as Hwn'. destruct n as [? [] ? ? subs]; try done; apply wf_node_unfold in Hwn' as [Hsh _]; cbn in Hsh; [by subst subs | by destruct Hsh as [-> _]]. }
      assert (Hcn0 : forall s, cnode s n /\ (nkind n <> Delta -> forall r, r ∈ nsubs n -> comp s r)).
      { intros s. split; [intros _; split; [rewrite Hnosub; by intros r ?%elem_of_nil | intros Hgk; unfold is_simple in Esi; by rewrite Hgk in Esi] | intros _; rewrite Hnosub; by intros r ?%elem_of_nil]. }
      assert (Hcss : forall m, m ∈ ns -> is_simple m = true -> cons (lead σ) ns m) by auto.
      assert (Hin1 : forall x, x ∈ nins n -> marked σ x /\ x ∉ nouts n) by (intros x Hx; split; auto).
      assert (Hip1 : forall m x, m ∈ pre -> x ∈ nins m -> marked σ x /\ x ∉ nouts n) by (intros m x Hm Hx; split; eauto).
      assert (Hmk1 : forall m x, m ∈ pre -> x ∈ nouts m -> marked σ x). { intros m x Hm Hx. apply Hmk. apply elem_of_app. right. apply elem_of_own. eauto. }
      destruct (decide (nins n = [])) as [Ein|Ein].
      + assert (HE : forall A (a b : A), match nins n with [] => a | _ => b end = a) by (intros; by rewrite Ein). rewrite HE. clear HE. destruct (mark_top_total choose Hch ns Hown Hids Hop' σ pre tops n) as (tops1 & σ1 & E & HC & Hsub); try done. { intros m Hm. destruct (Ht m Hm) as (? & _ & _ & ?). done. }
        rewrite E. cbn [mbind option_bind]. destruct (mark_top_spec ns Hown Hids σ σ1 pre tops tops1 n) as (V1 & V2 & V3 & V4); try done.
        destruct (crep_step choose Hch ns Hown Hids Hop' σ pre tops n) with (σ' := σ1) (tops' := tops1) as [C1 C2]; try done.
        apply Hstep; try done; [by eapply ext_weaken | intros _; by eapply visited_cons | apply HC].
      + assert (HE : forall A (a b : A), match nins n with [] => a | _ => b end = b) by (intros; by destruct (nins n)). rewrite HE. clear HE. destruct (mark_simple_total choose Hch ns Hown Hids Hop' σ pre tops n) as (σ1 & E & HC); try done.
        rewrite E. cbn [mbind option_bind]. destruct (mark_simple_spec choose Hch1 ns Hown Hids σ σ1 pre n) as (V1 & V2 & V3); try done.
        destruct (crep_step choose Hch ns Hown Hids Hop' σ pre tops n) with (σ' := σ1) (tops' := tops) as [C1 C2]; try done.
        assert (V2' : ext σ σ1 (ndefs n).*1) by (by eapply ext_weaken). apply Hstep; try done; [intros _; by eapply visited_cons | by apply Htops | apply HC].
    - destruct (IH n Hn Esi) as [IH1 IH2]. destruct (IH2 σ Hs Hun) as (σ1 & E & M1 & M2 & M3); [auto|]. rewrite E. cbn [mbind option_bind]. destruct (IH1 σ σ1 Hs (Hpn n Hn) E) as (V1 & V2 & V3 & V4).
      assert (Ai : forall m, m ∈ pre -> agree (lead σ) (lead σ1) (nins m)) by (intros m Hm x Hx; eapply ext_lead; [done | exact V2 | eauto]).
      assert (Ao : forall m, m ∈ pre -> agree (lead σ) (lead σ1) (nouts m)). { intros m Hm x Hx. eapply ext_lead; [done | exact V2|]. apply Hkpre. apply elem_of_app. right. apply elem_of_own. eauto. }
      apply Hstep; try done; [by apply Htops | |].
      + intros m [Hm| ->%elem_of_list_singleton]%elem_of_app Hsm; [|by rewrite Esi in Hsm]. destruct (Hrep m Hm Hsm) as (m0 & A1 & A2 & A3 & A4 & A5 & A6). exists m0. split; [apply elem_of_app; by left|]. split; [done|]. split; [done|]. rewrite (agree_fmap _ _ _ (Ai m Hm)), (agree_fmap _ _ _ (Ai m0 A1)), (agree_fmap _ _ _ (Ao m Hm)). done.
      + intros m m' Hm Hm' Hsm Hkm He. assert (Hsm' : is_simple m' = true) by (unfold is_simple in *; by rewrite <-Hkm). apply elem_of_app in Hm as [Hm|Hm%elem_of_list_singleton]; [|subst m; by rewrite Esi in Hsm]. apply elem_of_app in Hm' as [Hm'|Hm'%elem_of_list_singleton]; [|subst m'; by rewrite Esi in Hsm'].
        rewrite (agree_fmap _ _ _ (Ai m Hm)), (agree_fmap _ _ _ (Ai m' Hm')) in He. rewrite (agree_fmap _ _ _ (Ao m Hm)), (agree_fmap _ _ _ (Ao m' Hm')). by apply Hcs.
  Qed.
  Lemma reg_inner t r n q : reg t r -> n ∈ rnodes r -> q ∈ nsubs n -> forall r', reg q r' -> reg t r'.
  Proof using. clear. intros Hr Hn Hq r' Hr'. eapply reg_trans; [|exact Hr']. by eapply reg_sub. Qed.
  Lemma total_ok : (forall n, good_node n -> is_simple n = false -> nkind n <> Theta -> (nkind n = Gamma -> forall r c, r ∈ nsubs n -> rargs r !! 0 = Some c -> c ∉ rres r) -> (forall r, r ∈ nsubs n -> theta_free r /\ op_outputs r /\ content_free r) -> (forall x, x ∈ nins n -> x ∉ (ndefs n).*1) -> ntmarks n (mark_node choose n)) /\
    (forall r, good_region r -> theta_free r -> op_outputs r -> content_free r -> tmarks r (mark_region choose r)).
  Proof using Hch.
    apply tree_ind.
    - intros id k ins outs subs IH Hg Hs Hk Hcon Htf Hi. rewrite Forall_forall in IH. apply mark_node_total; [done | done | done | done | done|]. intros r Hr. pose proof (good_subs _ _ Hg Hr) as Hgr. destruct (Htf r Hr) as (T1 & T2 & T3). split; [by apply (mark_ok choose Hch1) | by apply (IH r Hr)].
    - intros args res ns IH Hg Htf Hop Hcon σ Hs Hu Ha. rewrite Forall_forall in IH. rewrite mark_region_unfold. pose proof Hg as ((Hw & _) & Hk & _).
      destruct (visit_total args res ns Hg Hop) with (rest := ns) (pre := @nil node) (tops := @nil node) (σ := σ) as (σ' & E & M1 & M2); try done.
      + intros n Hn Hsi. assert (Hix : forall x, x ∈ nins n -> x ∉ (ndefs n).*1).
        { intros x Hx Hx'. cbn [rargs] in Hk. unfold rkeys in Hk. rewrite rkeys_eq in Hk. apply NoDup_app in Hk as (_ & Hka & Hkn).
          apply elem_of_list_split in Hn as (a & b & ->). apply wf_list_app in Hw as [_ Hw]. cbn [wf_list] in Hw. destruct Hw as (Hin & _). rewrite Forall_forall in Hin. specialize (Hin x Hx). rewrite mjoin_map_app in Hka, Hkn.
          change (mjoin (map (fun n => (ndefs n).*1) (n :: b))) with ((ndefs n).*1 ++ mjoin (map (fun n => (ndefs n).*1) b)) in *. apply elem_of_app in Hin as [Hin|Hin].
          - apply (Hka x Hin). apply elem_of_app. right. apply elem_of_app. by left.
          - apply NoDup_app in Hkn as (_ & Hd & _). apply (Hd x); [|apply elem_of_app; by left]. apply elem_of_own in Hin as (m & Hm & Hin). apply elem_of_mjoin_map. exists m. split; [done | by apply nouts_nkeys]. }
        split; [apply (mark_ok choose Hch1); [by eapply good_nodes | done | done]|]. apply (IH n Hn); [by eapply good_nodes | done | | | | done].
        * eapply Htf; [constructor | done].
        * intros Hgk r c Hr Hc. eapply (Hcon (Region args res ns)); [constructor | exact Hn | done | exact Hr | done].
        * intros r Hr. pose proof (reg_inner (Region args res ns) _ n r (reg_root _) Hn Hr) as Hri. split; [intros r' m Hr'; apply Htf; auto|]. split; [intros r' m m' Hr'; apply Hop; auto | intros r' m q Hr'; apply Hcon; auto].
      + by apply (pre_fresh σ).
      + by intros m ?%elem_of_nil.
      + by rewrite rkeys_eq in Hu.
      + change (own []) with (@nil nat). rewrite app_nil_r. done.
      + by intros m ?%elem_of_nil.
      + apply comp_cases. cbn [rnodes]. split; [by intros m n ?%elem_of_nil | by intros n ?%elem_of_nil].
      + exists σ'. split; [done|]. split; [intros x Hx; apply M1; apply elem_of_app; by right|]. intros r' Hr'. apply vis_cases in Hr' as [->|Hr'].
        * apply (M2 (Region args [] ns)). constructor.
        * apply M2. apply vis_cases. right. exact Hr'.
  Qed.
End Total.
