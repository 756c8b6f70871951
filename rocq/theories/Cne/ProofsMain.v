(** Induction over the module: after marking, if leaders come first, every congruence is justified. *)
From stdpp Require Import base list list_numbers fin_sets gmap.
From Verif.Rvsdg Require Import Model Spec Sem Wf WfFacts Args Divert Local.
From Verif.Dne Require Import Model ProofsShrink.
From Verif.Ivr Require Import Model ProofsMain.
From Verif.Cne Require Import Model Spec ProofsSem ProofsState ProofsPart Just JustView Pre ProofsSimple ProofsOuts ProofsSubs.

Lemma jlist_app f pre a b : jlist f pre (a ++ b) <-> jlist f pre a /\ jlist f (pre ++ a) b.
Proof. revert pre. induction a as [|n a IH]; intros pre; [rewrite app_nil_r; cbn; tauto|]. cbn [jlist app]. rewrite IH, <-app_assoc. cbn. tauto. Qed.
Lemma avail_app s av a b : avail_ok s av (a ++ b) <-> avail_ok s av a /\ avail_ok s (av ++ own a) b.
Proof.
  revert av. induction a as [|n a IH]; intros av; [change (own []) with (@nil nat); rewrite app_nil_r; cbn; tauto|]. cbn [avail_ok app]. rewrite IH. change (own (n :: a)) with (nouts n ++ own a). rewrite <-app_assoc. tauto.
Qed.
Lemma mjoin_map_app {A B} (f : A -> list B) a b : mjoin (map f (a ++ b)) = mjoin (map f a) ++ mjoin (map f b).
Proof. induction a as [|x a IH]; [done|]. change (mjoin (map f ((x :: a) ++ b))) with (f x ++ mjoin (map f (a ++ b))). rewrite IH. change (mjoin (map f (x :: a))) with (f x ++ mjoin (map f a)). by rewrite app_assoc. Qed.
Lemma wf_list_app f av a b : wf_list f av (a ++ b) <-> wf_list f av a /\ wf_list f (av ++ own a) b.
Proof.
  revert av. induction a as [|n a IH]; intros av; [change (own []) with (@nil nat); rewrite app_nil_r; cbn; tauto|]. cbn [wf_list app]. rewrite IH. change (own (n :: a)) with (nouts n ++ own a). rewrite <-app_assoc. tauto.
Qed.
Lemma own_app a b : own (a ++ b) = own a ++ own b.
Proof. apply mjoin_map_app. Qed.

Lemma mark_node_unfold choose id k ins outs subs σ : mark_node choose (Node id k ins outs subs) σ =
    let l := map (fun r => (r, mark_region choose r)) subs in
    match k with
    | Gamma => '(_, σ1) ← mark_subs k ins l σ; mark_exit_vars choose ins outs subs σ1
    | Theta => '(ch, σ1) ← mark_subs k ins l σ;
        let r := nth 0 subs region0 in
        σ2 ← (if (ch : bool) then theta_loop (S (length (rargs r))) r (nth 0 (map (mark_region choose) subs) (fun _ => None)) σ1 else Some σ1);
        mark_theta_outputs (negb ch) ins outs r σ2
    | Lambda _ | Phi => '(_, σ1) ← mark_subs k ins l σ; Some (make_leaders outs σ1)
    | Delta => Some (make_leaders outs σ)
    | Simple _ | Load _ => Some σ
    end.
Proof. done. Qed.
Lemma mark_region_unfold choose args res ns σ : mark_region choose (Region args res ns) σ = visit_nodes choose ns (map (fun n => (n, mark_node choose n)) ns) [] σ.
Proof. done. Qed.

Section Main.
  Context (choose : cstate -> list nat -> option nat) (Hch : forall σ l x, choose σ l = Some x -> x ∈ l).
  Definition subs_ok (k : kind) (ins : list oid) (σ : cstate) (l : list region) : Prop := forall r, r ∈ l -> pre_region σ r /\ sub_done σ r /\ jargs (lead σ) k ins r.
  Lemma mark_subs_fold k ins l d ch σ ch' σ' : NoDup (mjoin (map subkeys (d ++ l))) -> (forall r, r ∈ d ++ l -> wf_region r) -> (forall r x, r ∈ d ++ l -> x ∈ ins -> x ∉ subkeys r) -> (forall r, r ∈ l -> marks r (mark_region choose r)) ->
    SW σ -> subs_ok k ins σ d -> (forall r, r ∈ l -> pre_region σ r /\ (fresh_args σ r \/ sub_done σ r)) ->
    foldl (mark_sub k ins) (Some (ch, σ)) (map (fun r => (r, mark_region choose r)) l) = Some (ch', σ') -> SW σ' /\ ext σ σ' (mjoin (map subkeys l)) /\ subs_ok k ins σ' (d ++ l).
  Proof using.
    revert d ch σ. induction l as [|r l IH]; intros d ch σ Hn Hw Hi Hm Hs Hd Hl H; cbn [map foldl] in H.
    - injection H as <- <-. split; [done|]. split; [apply ext_refl|]. by rewrite app_nil_r.
    - destruct (mark_sub k ins (Some (ch, σ)) (r, mark_region choose r)) as [[ch1 σ1]|] eqn:E; [|by rewrite foldl_None in H by (by intros [])].
      assert (Hin : r ∈ d ++ r :: l) by (apply elem_of_app; right; left). destruct (Hl r ltac:(left)) as [Hpr Hfr].
      pose proof (NoDup_mjoin_elem _ _ _ Hn Hin) as Hnr. destruct (mark_sub_spec k ins r _ (Hw r Hin) Hnr (fun x => Hi r x Hin) (Hm r ltac:(left)) _ _ _ _ Hs Hpr Hfr E) as (G1 & G2 & G3 & G4 & G5 & _).
      assert (Hdis : forall r', r' ∈ d ++ l -> forall x, x ∈ subkeys r' -> x ∉ subkeys r).
      { intros r' Hr' x Hx Hx'. rewrite mjoin_map_app in Hn. change (mjoin (map subkeys (r :: l))) with (subkeys r ++ mjoin (map subkeys l)) in Hn. apply NoDup_app in Hn as (_ & Hn1 & Hn2). apply NoDup_app in Hn2 as (_ & Hn2 & _). apply elem_of_app in Hr' as [Hr'|Hr'].
        - apply (Hn1 x); [apply elem_of_mjoin_map; eauto | apply elem_of_app; by left].
        - apply (Hn2 x Hx'). apply elem_of_mjoin_map. eauto. }
      assert (Hag : forall r', r' ∈ d ++ l -> agc σ σ1 (subkeys r')) by (intros r' Hr'; by eapply ext_agc; [| |apply Hdis]).
      assert (Hagi : agc σ σ1 ins) by (eapply ext_agc; [done | done | intros x Hx; by apply Hi]).
      assert (Hpre : forall r', r' ∈ d ++ l -> pre_region σ r' -> pre_region σ1 r'). { intros r' Hr' Hp. eapply (pre_ext σ σ1); [apply Hw | | exact Hp]. { apply elem_of_app in Hr' as [?|?]; apply elem_of_app; [by left | right; by right]. } eapply agc_sub; [|by apply Hag]. intros x. apply subkeys_def. }
      assert (Hwd : forall r', r' ∈ d ++ l -> wf_region r') by (intros r' Hr'; apply Hw; apply elem_of_app in Hr' as [?|?]; apply elem_of_app; [by left | right; by right]).
      rewrite cons_middle, app_assoc in Hn, Hw, Hi |- *. destruct (IH (d ++ [r]) ch1 σ1) as (K1 & K2 & K3); [done | done | done | intros; apply Hm; by right | done | | |exact H|].
      + intros r' Hr'. apply elem_of_app in Hr' as [Hr'|Hr'%elem_of_list_singleton]; [|subst r'; done]. destruct (Hd r' Hr') as (A1 & A2 & A3). assert (Hr2 : r' ∈ d ++ l) by (apply elem_of_app; by left). split; [auto|]. split; [eapply sub_done_ext; [| |exact A2]; auto|].
        eapply jargs_ext; [|exact A3]. intros x Hx. apply elem_of_app in Hx as [Hx|Hx]; [by apply Hagi | apply (Hag r' Hr2); by apply subkeys_arg].
      + intros r' Hr'. destruct (Hl r') as [A1 A2]; [by right|]. assert (Hr2 : r' ∈ d ++ l) by (apply elem_of_app; by right). split; [auto|]. destruct A2 as [A2|A2]; [left; eapply fresh_ext; [|exact A2]; auto | right; eapply sub_done_ext; [| |exact A2]; auto].
      + split; [done|]. split; [|done]. change (mjoin (map subkeys (r :: l))) with (subkeys r ++ mjoin (map subkeys l)). eapply ext_trans; [eapply ext_weaken; [|exact G2] | eapply ext_weaken; [|exact K2]]; intros x Hx; apply elem_of_app; auto.
  Qed.
  (** what marking a structural node does *)
  Definition nmarks (n : node) (f : cstate -> option cstate) : Prop := forall σ σ', SW σ -> pre_node σ n -> f σ = Some σ' ->
    SW σ' /\ ext σ σ' (ndefs n).*1 /\ pre_node σ' n /\ (dok_node (lead σ') n -> forall pre, jnode (lead σ') pre n).
  Lemma mark_node_spec n : good_node n -> is_simple n = false -> (forall x, x ∈ nins n -> x ∉ (ndefs n).*1) -> (forall r, r ∈ nsubs n -> marks r (mark_region choose r)) -> nmarks n (mark_node choose n).
  Proof using Hch.
    destruct n as [id k ins outs subs]. intros Hg Hns Hi IH σ σ' Hs Hp H. cbn [nins nsubs] in *. pose proof (fun r => good_subs _ r Hg) as Hgs. cbn [nsubs] in Hgs. destruct Hg as (Hw & Hn & _). unfold nkeys in Hn. rewrite nkeys_eq in Hn. apply NoDup_app in Hn as (Hno & Hod & Hnm).
    change (mjoin (map (fun r => rargs r ++ (rdefs r).*1) subs)) with (mjoin (map subkeys subs)) in *. apply wf_node_unfold in Hw as [Hsh Hwr]. rewrite Forall_forall in Hwr.
    assert (Hsub : forall r x, r ∈ subs -> x ∈ subkeys r -> x ∈ (ndefs (Node id k ins outs subs)).*1) by (intros r x Hr Hx; by eapply (subkeys_nkeys (Node id k ins outs subs))).
    assert (Hout : forall x, x ∈ outs -> x ∈ (ndefs (Node id k ins outs subs)).*1) by (intros x Hx; by apply (nouts_nkeys (Node id k ins outs subs))).
    assert (Hosub : forall r x, r ∈ subs -> x ∈ subkeys r -> x ∉ outs). { intros r x Hr Hx Ho. apply (Hod x Ho). apply elem_of_mjoin_map. eauto. }
    assert (Hins : forall r x, r ∈ subs -> x ∈ ins -> x ∉ subkeys r) by (intros r x Hr Hx Hx'; by eapply Hi, Hsub).
    assert (Hino : forall x, x ∈ ins -> x ∉ outs) by (intros x Hx Hx'; by eapply Hi, Hout).
    (* the outputs are marked after the subregions *)
    assert (Hext : forall σ1 σ2, ext σ σ1 (mjoin (map subkeys subs)) -> ext σ1 σ2 outs -> ext σ σ2 (ndefs (Node id k ins outs subs)).*1).
    { intros σ1 σ2 E1 E2. rewrite nkeys_eq. change (mjoin (map (fun r => rargs r ++ (rdefs r).*1) subs)) with (mjoin (map subkeys subs)). eapply ext_trans; [eapply ext_weaken; [|exact E1] | eapply ext_weaken; [|exact E2]]; intros x Hx; apply elem_of_app; auto. }
    assert (Hafter : forall σ1 σ2, SW σ1 -> ext σ1 σ2 outs -> subs_ok k ins σ1 subs -> subs_ok k ins σ2 subs).
    { intros σ1 σ2 W1 E1 Hok r Hr. destruct (Hok r Hr) as (A1 & A2 & A3). assert (Hag : agc σ1 σ2 (subkeys r)) by (eapply ext_agc; eauto). split; [|split].
      - eapply (pre_ext σ1 σ2); [auto | | exact A1]. eapply agc_sub; [|exact Hag]. intros x. apply subkeys_def.
      - eapply sub_done_ext; eauto.
      - eapply jargs_ext; [|exact A3]. intros x Hx. apply elem_of_app in Hx as [Hx|Hx]; [eapply ext_lead; eauto | apply Hag; by apply subkeys_arg]. }
    assert (HS : forall ch σ1, fold_right and True (map (pre_region σ) subs) /\ Forall (fun r => fresh_args σ r \/ sub_done σ r) subs -> mark_subs k ins (map (fun r => (r, mark_region choose r)) subs) σ = Some (ch, σ1) -> SW σ1 /\ ext σ σ1 (mjoin (map subkeys subs)) /\ subs_ok k ins σ1 subs).
    { intros ch σ1 [H1 H2] Hm. rewrite fold_and, Forall_forall in H1. rewrite Forall_forall in H2. unfold mark_subs in Hm. eapply (mark_subs_fold k ins subs []); [done | done | intros; eapply Hins; eauto | done | done | by intros r ?%elem_of_nil | auto | exact Hm]. }
    assert (Hj : forall σ', subs_ok k ins σ' subs -> fold_right and True (map (dok_region (lead σ')) subs) -> fold_right and True (map (jregion (lead σ')) subs) /\ Forall (jargs (lead σ') k ins) subs).
    { intros σ1 Hok Hd. rewrite fold_and, Forall_forall in Hd. rewrite fold_and, !Forall_forall. split; intros r Hr; destruct (Hok r Hr) as (_ & [_ A2] & A3); auto. }
    assert (Hpn : forall σ', subs_ok k ins σ' subs -> fold_right and True (map (pre_region σ') subs) /\ Forall (fun r => fresh_args σ' r \/ sub_done σ' r) subs).
    { intros σ1 Hok. rewrite fold_and, !Forall_forall. split; intros r Hr; destruct (Hok r Hr) as (A1 & A2 & A3); auto. }
    rewrite mark_node_unfold in H. cbn zeta in H. destruct k; try done; cbn [pre_node] in Hp.
    - destruct Hp as (Hp1 & Hp2 & _). destruct (mark_subs Gamma ins _ σ) as [[ch σ1]|] eqn:E; cbn [mbind option_bind] in H; [|done]. destruct (HS _ _ (conj Hp1 Hp2) eq_refl) as (S1 & S2 & S3).
      destruct (mark_exit_vars_spec choose Hch ins outs subs Hno Hino) with (σ := σ1) (σ' := σ') as (O1 & O2 & O3); [|done | done|].
      { intros r x Hr Hx. eapply Hosub; [exact Hr|]. by apply res_subkeys; auto. }
      pose proof (Hafter _ _ S1 O2 S3) as Hok. split; [done|]. split; [by eapply Hext|]. split; [cbn [pre_node]; destruct (Hpn _ Hok); done|]. intros Hd pre. cbn [jnode]. split; [by apply Hj | done].
    - destruct Hp as (Hp1 & Hp2 & Hp3). destruct Hsh as (r & -> & L1 & L2 & L3). assert (Hr0 : r ∈ [r]) by left. cbn [map nth] in *. unfold mark_subs in H. cbn [foldl] in H. rewrite Forall_forall in Hp2. cbn [fold_right] in Hp1. destruct Hp1 as [Hp1 _].
      destruct (mark_sub Theta ins (Some (false, σ)) (r, mark_region choose r)) as [[ch σ1]|] eqn:E; cbn [mbind option_bind] in H; [|done]. assert (Hnr : NoDup (subkeys r)) by (by apply (NoDup_mjoin_elem subkeys [r] r)).
      destruct (mark_sub_spec Theta ins r _ (Hwr r Hr0) Hnr (fun x => Hins r x Hr0) (IH r Hr0) _ _ _ _ Hs Hp1 (Hp2 r Hr0) E) as (G1 & G2 & G3 & G4 & G5 & G6).
      destruct (if ch then theta_loop _ _ _ _ else Some σ1) as [σ2|] eqn:E2; cbn [mbind option_bind] in H; [|done].
      assert (H2 : SW σ2 /\ ext σ σ2 (subkeys r) /\ pre_region σ2 r /\ sub_done σ2 r /\ jargs (lead σ2) Theta ins r /\ jposts (lead σ2) r /\ (negb ch = true -> theta_done σ2 outs r)).
      { destruct ch.
        - destruct (theta_loop_spec Theta ins r _ (Hwr r Hr0) Hnr (fun x => Hins r x Hr0) (IH r Hr0) _ _ _ eq_refl ltac:(lia) G1 G3 G4 G5 E2) as (K1 & K2 & K3 & K4 & K5 & K6). split; [done|]. split; [by eapply ext_trans|]. done.
        - injection E2 as <-. split; [done|]. split; [done|]. split; [done|]. split; [done|]. split; [done|].
          assert (Ht : theta_done σ1 outs r); [|split; [apply Ht | done]]. destruct G6 as [?|[_ [Hnil| ->]]]; [done | |].
          + assert (Ho0 : outs = []) by (apply nil_length_inv; rewrite Hnil in L1; cbn in L1; lia). split; [intros i j a b x y; by rewrite Hnil | rewrite Ho0; intros i o x Hx; done].
          + destruct Hp3 as [Hf|Ht]; [|done]. destruct (decide (rargs r = [])) as [Hnil|Hne].
            * assert (Ho0 : outs = []) by (apply nil_length_inv; rewrite Hnil in L1; cbn in L1; lia). split; [intros i j a b x y; by rewrite Hnil | rewrite Ho0; intros i o x Hx; done].
            * exfalso. destruct G4 as [G4 _]. destruct (rargs r) as [|a l] eqn:Er; [done|]. destruct (G4 a ltac:(left)) as [[i Hm] _]. unfold fresh_args in Hf. rewrite Er in Hf. rewrite (Hf a ltac:(left)) in Hm. done. }
      destruct H2 as (K1 & K2 & K3 & K4 & K5 & K6 & K7). destruct (sub_wf r Hnr) as [Hna _].
      destruct (mark_theta_outputs_spec ins outs r Hno Hna Hino) with (only := negb ch) (σ := σ2) (σ' := σ') as (O1 & O2 & O3); try done; try lia.
      { intros x Hx. eapply Hosub; [exact Hr0 | by apply subkeys_arg]. } { intros x Hx. eapply Hosub; [exact Hr0 | by apply res_subkeys; auto]. }
      assert (Hok : subs_ok Theta ins σ' [r]). { eapply Hafter; [exact K1 | exact O2|]. intros r' Hr'%elem_of_list_singleton. by subst r'. }
      assert (Hag : agc σ2 σ' (subkeys r)) by (eapply ext_agc; [done | exact O2|]; intros x; by apply Hosub). pose proof (jposts_ext _ _ r (Hwr r Hr0) (agc_agree _ _ _ Hag) K6) as Hjp.
      split; [done|]. split; [eapply Hext; [|exact O2]; eapply ext_weaken; [|exact K2]; intros x Hx; apply (elem_of_mjoin_map subkeys [r]); eauto|]. split.
      + cbn [pre_node nth]. destruct (Hpn _ Hok) as [A1 A2]. split; [done|]. split; [done|]. right. split; [done|]. intros i o x Ho Hx. destruct (O3 i o x Ho Hx) as [?|[?|(j & z & ? & _)]]; [by left | right; by left | right; right; eauto].
      + intros Hd pre. cbn [jnode nth]. split; [by apply Hj|]. done.
    - destruct Hp as (Hp1 & Hp2 & _). destruct (mark_subs (Lambda n) ins _ σ) as [[ch σ1]|] eqn:E; cbn [mbind option_bind] in H; [|done]. injection H as <-. destruct (HS _ _ (conj Hp1 Hp2) eq_refl) as (S1 & S2 & S3). destruct (make_leaders_spec outs σ1 S1) as (O1 & O2 & O3).
      pose proof (Hafter _ _ S1 O2 S3) as Hok. split; [done|]. split; [by eapply Hext|]. split; [cbn [pre_node]; destruct (Hpn _ Hok); done|]. intros Hd pre. cbn [jnode]. split; [by apply Hj|]. intros o Ho. by apply O3.
    - destruct Hp as (Hp1 & Hp2 & _). destruct (mark_subs Phi ins _ σ) as [[ch σ1]|] eqn:E; cbn [mbind option_bind] in H; [|done]. injection H as <-. destruct (HS _ _ (conj Hp1 Hp2) eq_refl) as (S1 & S2 & S3). destruct (make_leaders_spec outs σ1 S1) as (O1 & O2 & O3).
      pose proof (Hafter _ _ S1 O2 S3) as Hok. split; [done|]. split; [by eapply Hext|]. split; [cbn [pre_node]; destruct (Hpn _ Hok); done|]. intros Hd pre. cbn [jnode]. split; [by apply Hj|]. intros o Ho. by apply O3.
    - injection H as <-. destruct (make_leaders_spec outs σ Hs) as (O1 & O2 & O3). assert (Hin : forall r o, r ∈ subs -> o ∈ subkeys r -> lead (make_leaders outs σ) o = o). { intros r o Hr Ho. rewrite (ext_lead _ _ _ _ Hs O2); [by eapply Hp | by eapply Hosub]. }
      split; [done|]. split; [eapply Hext; [apply ext_refl | done]|]. split; [done|]. intros Hd pre. cbn [jnode]. intros o Ho. apply nkeys_iff in Ho as [Ho|(r & Hr & Ho)]; [by apply O3|]. apply (Hin r o Hr). unfold subkeys. apply elem_of_app. tauto.
  Qed.

  Lemma visit_spec args res ns : good_region (Region args res ns) -> (forall n, n ∈ ns -> is_simple n = false -> nmarks n (mark_node choose n)) ->
    forall rest pre tops σ σ', ns = pre ++ rest -> SW σ -> pre_region σ (Region args res ns) -> tops_ok ns σ pre tops -> (dok_region (lead σ) (Region args [] pre) -> jregion (lead σ) (Region args [] pre)) ->
      visit_nodes choose ns (map (fun n => (n, mark_node choose n)) rest) tops σ = Some σ' ->
      SW σ' /\ ext σ σ' (mjoin (map (fun n => (ndefs n).*1) rest)) /\ pre_region σ' (Region args res ns) /\ (dok_region (lead σ') (Region args [] ns) -> jregion (lead σ') (Region args [] ns)).
  Proof using Hch.
    intros Hg IH. pose proof (fun n => good_nodes _ _ _ n Hg) as Hgn. pose proof (good_ids _ _ _ Hg) as Hids. destruct (good_own _ _ _ Hg) as [Hown Hargs]. destruct Hg as ((Hw & _) & Hk & _). cbn [rargs] in Hk. unfold rkeys in Hk. rewrite rkeys_eq in Hk. apply NoDup_app in Hk as (_ & Hka & Hkn).
    pose proof (wf_list_Forall _ _ _ Hw) as Hwn. rewrite Forall_forall in Hwn.
    induction rest as [|n rest IHr]; intros pre tops σ σ' Ens Hs Hp Ht Hj H; cbn [map visit_nodes] in H.
    { injection H as <-. rewrite app_nil_r in Ens. subst pre. split; [done|]. split; [apply ext_refl|]. done. }
    assert (Hn : n ∈ ns) by (rewrite Ens; apply elem_of_app; right; left).
    assert (Hpre : forall m, m ∈ pre -> m ∈ ns) by (intros m Hm; rewrite Ens; apply elem_of_app; by left).
    assert (Hkeys : forall m, m ∈ ns -> m <> n -> forall x, x ∈ (ndefs m).*1 -> x ∉ (ndefs n).*1). { intros m Hm Hne x Hx Hx'. apply Hne. by eapply (mjoin_unique (fun n => (ndefs n).*1)). }
    assert (Hkargs : forall x, x ∈ args -> x ∉ (ndefs n).*1). { intros x Hx Hx'. apply (Hka x Hx). apply elem_of_mjoin_map. eauto. }
    assert (Hnpre : n ∉ pre). { intros Hin. rewrite Ens in Hids. change (map nid (pre ++ n :: rest)) with (nid <$> (pre ++ n :: rest)) in Hids. rewrite fmap_app in Hids. apply NoDup_app in Hids as (_ & Hd & _). apply (Hd (nid n)); [apply elem_of_list_fmap; eauto | rewrite fmap_cons; left]. }
    assert (Hkpre : forall x, x ∈ args ++ own pre -> x ∉ (ndefs n).*1).
    { intros x Hx. apply elem_of_app in Hx as [Hx|Hx]; [auto|]. apply elem_of_own in Hx as (m & Hm & Hx). apply (Hkeys m); [auto | by intros -> | by apply nouts_nkeys]. }
    pose proof Hw as Hw2. rewrite Ens in Hw2. apply wf_list_app in Hw2 as [Hwp Hwr]. cbn [wf_list] in Hwr. destruct Hwr as (Hin & _ & _). rewrite Forall_forall in Hin.
    assert (Hins : forall x, x ∈ nins n -> x ∉ (ndefs n).*1) by auto.
    assert (Hinp : forall m x, m ∈ pre -> x ∈ nins m -> x ∉ (ndefs n).*1). { intros m x Hm Hx. apply Hkpre. pose proof (wf_list_scope _ _ _ Hwp) as Hsc. rewrite Forall_forall in Hsc. specialize (Hsc m Hm). rewrite Forall_forall in Hsc. auto. }
    pose proof Hp as [Hcons Hpn]. rewrite Forall_forall in Hcons. rewrite fold_and, Forall_forall in Hpn.
    assert (Houtk : forall x, x ∈ nouts n -> x ∈ (ndefs n).*1) by (intros x; apply nouts_nkeys).
    assert (Hinpo : forall m x, m ∈ pre -> x ∈ nins m -> x ∉ nouts n) by (intros m x Hm Hx Hx'; eapply Hinp; eauto). assert (Hinso : forall x, x ∈ nins n -> x ∉ nouts n) by (intros x Hx Hx'; by eapply Hins, Houtk).
    assert (Hstep : forall σ1 tops1, SW σ1 -> ext σ σ1 (ndefs n).*1 -> (is_simple n = true -> cons (lead σ1) ns n) -> pre_node σ1 n -> tops_ok ns σ1 (pre ++ [n]) tops1 ->
      (dok_node (lead σ1) n -> (forall x, x ∈ nouts n -> lead σ1 x ∈ (args ++ own pre) ++ nouts n) -> jnode (lead σ1) pre n) ->
      visit_nodes choose ns (map (fun n => (n, mark_node choose n)) rest) tops1 σ1 = Some σ' -> SW σ' /\ ext σ σ' (mjoin (map (fun n => (ndefs n).*1) (n :: rest))) /\ pre_region σ' (Region args res ns) /\ (dok_region (lead σ') (Region args [] ns) -> jregion (lead σ') (Region args [] ns))).
    { intros σ1 tops1 W1 E1 Hc1 Hpn1 Ht1 Hjn Hv. destruct (IHr (pre ++ [n]) tops1 σ1 σ') as (K1 & K2 & K3 & K4).
      - by rewrite <-app_assoc.
      - done.
      - cbn [pre_region]. rewrite fold_and, !Forall_forall. split; intros m Hm.
        + intros Hsm. destruct (decide (nid m = nid n)) as [He|He]; [pose proof (nid_unique _ _ _ Hids Hm Hn He); subst m; auto|]. eapply cons_ext; [|by apply Hcons]. intros x Hx. eapply ext_lead; [done | exact E1|]. apply (Hkeys m Hm); [by intros -> | by apply nouts_nkeys].
        + destruct (decide (nid m = nid n)) as [He|He]; [pose proof (nid_unique _ _ _ Hids Hm Hn He); subst m; auto|]. eapply (pre_ext σ σ1); [auto | | by apply Hpn]. eapply ext_agc; [done | exact E1|]. apply (Hkeys m Hm). by intros ->.
      - done.
      - intros Hd. cbn [dok_region] in Hd. destruct Hd as (D1 & D2 & D3). apply avail_app in D2 as [D2 D4]. cbn [avail_ok] in D4. destruct D4 as [D4 _]. rewrite fold_and, Forall_app, Forall_singleton in D3. destruct D3 as [D3 D5].
        assert (Hag : agree (lead σ) (lead σ1) (subkeys (Region args [] pre))).
        { intros x Hx. eapply ext_lead; [done | exact E1|]. unfold subkeys in Hx. cbn [rargs] in Hx. apply elem_of_app in Hx as [Hx|Hx]; [auto|]. apply rkeys_iff in Hx as (m & Hm & Hx). apply (Hkeys m); [auto | by intros -> | done]. }
        assert (Hwpr : wf_region (Region args [] pre)) by (split; [done | constructor]).
        apply jregion_unfold. apply jlist_app. split.
        + apply (jregion_unfold _ args []). apply (proj2 (jext (lead σ) (lead σ1)) _ Hwpr Hag). apply Hj. apply (proj2 (dext (lead σ1) (lead σ))); [intros x Hx; symmetry; by apply Hag|]. cbn [dok_region]. rewrite fold_and. done.
        + cbn [jlist app]. split; [|done]. by apply Hjn.
      - exact Hv.
      - split; [done|]. split; [|done]. change (mjoin (map (fun n => (ndefs n).*1) (n :: rest))) with ((ndefs n).*1 ++ mjoin (map (fun n => (ndefs n).*1) rest)). eapply ext_trans; [eapply ext_weaken; [|exact E1] | eapply ext_weaken; [|exact K2]]; intros x Hx; apply elem_of_app; auto. }
    assert (Htops : forall σ1, ext σ σ1 (ndefs n).*1 -> tops_ok ns σ1 (pre ++ [n]) tops).
    { intros σ1 He m' Hm'. destruct (Ht m' Hm') as (H1 & H2 & H3 & H4). split; [apply elem_of_app; by left|]. split; [done|]. split; [done|]. intros o Ho. rewrite (ext_lead _ _ _ _ Hs He); [auto|]. apply (Hkeys m'); [done | by intros -> | by apply nouts_nkeys]. }
    destruct (is_simple n) eqn:Esi.
    - assert (Hpnn : forall σ1, pre_node σ1 n) by (intros σ1; destruct n as [? [] ? ? ?]; done).
      assert (Hjn : forall σ1, visited ns σ1 pre n -> dok_node (lead σ1) n -> (forall x, x ∈ nouts n -> lead σ1 x ∈ (args ++ own pre) ++ nouts n) -> jnode (lead σ1) pre n).
      { intros σ1 Hv _ Hav. assert (Hjs : jsimple (lead σ1) pre n); [|destruct n as [? [] ? ? ?]; done]. intros k o Ho. destruct Hv as [Hv|(m & Hm & V1 & V2 & V3 & V4)]; [left; apply Hv; by eapply elem_of_list_lookup_2|]. pose proof (V3 _ _ Ho) as Hmo. pose proof (elem_of_list_lookup_2 _ _ _ Hmo) as Hmi.
        specialize (Hav o (elem_of_list_lookup_2 _ _ _ Ho)). apply elem_of_app in Hav as [Hav|Hav].
        - apply elem_of_app in Hav as [Hav|Hav]; [exfalso; eapply Hargs; [exact Hav | apply elem_of_own; eauto]|]. apply elem_of_own in Hav as (m' & Hm' & Hx). pose proof (out_unique ns Hown m' m _ (Hpre _ Hm') Hm Hx Hmi) as ->. right. exists m. auto.
        - pose proof (out_unique ns Hown n m _ Hn Hm Hav Hmi) as <-. left. rewrite Ho in Hmo. by injection Hmo. }
      assert (Hcs : forall m, m ∈ ns -> is_simple m = true -> cons (lead σ) ns m) by auto.
      destruct (nins n) as [|x0 l0] eqn:Ein.
      + destruct (mark_top ns n tops σ) as [[tops1 σ1]|] eqn:E; cbn [mbind option_bind] in H; [|done]. rewrite <-Ein in *. destruct (mark_top_spec ns Hown Hids σ σ1 pre tops tops1 n) as (V1 & V2 & V3 & V4); try done.
        apply (Hstep σ1 tops1); try done; [by eapply ext_weaken | intros _; by eapply visited_cons | by apply Hjn].
      + destruct (mark_simple choose ns n σ) as [σ1|] eqn:E; cbn [mbind option_bind] in H; [|done]. rewrite <-Ein in *. destruct (mark_simple_spec choose Hch ns Hown Hids σ σ1 pre n) as (V1 & V2 & V3); try done.
        assert (V2' : ext σ σ1 (ndefs n).*1) by (by eapply ext_weaken). apply (Hstep σ1 tops); try done; [intros _; by eapply visited_cons | by apply Htops | by apply Hjn].
    - destruct (mark_node choose n σ) as [σ1|] eqn:E; cbn [mbind option_bind] in H; [|done]. destruct (IH n Hn Esi σ σ1 Hs (Hpn n Hn) E) as (V1 & V2 & V3 & V4). apply (Hstep σ1 tops); try done; [by apply Htops | auto].
  Qed.
  Lemma mark_ok : (forall n, good_node n -> is_simple n = false -> (forall x, x ∈ nins n -> x ∉ (ndefs n).*1) -> nmarks n (mark_node choose n)) /\ (forall r, good_region r -> marks r (mark_region choose r)).
  Proof using Hch.
    apply tree_ind.
    - intros id k ins outs subs IH Hg Hs Hi. rewrite Forall_forall in IH. apply mark_node_spec; [done | done | done|]. intros r Hr. apply (IH r Hr). by apply (good_subs _ _ Hg).
    - intros args res ns IH Hg σ σ' Hs Hp H. rewrite Forall_forall in IH. rewrite mark_region_unfold in H. pose proof Hg as ((Hw & _) & Hk & _).
      destruct (visit_spec args res ns Hg) with (rest := ns) (pre := @nil node) (tops := @nil node) (σ := σ) (σ' := σ') as (K1 & K2 & K3 & K4); try done.
      + intros n Hn Hsi. apply (IH n Hn); [by eapply good_nodes | done|]. intros x Hx Hx'. cbn [rargs] in Hk. unfold rkeys in Hk. rewrite rkeys_eq in Hk. apply NoDup_app in Hk as (_ & Hka & Hkn).
        apply elem_of_list_split in Hn as (a & b & ->). apply wf_list_app in Hw as [_ Hw]. cbn [wf_list] in Hw. destruct Hw as (Hin & _). rewrite Forall_forall in Hin. specialize (Hin x Hx). rewrite mjoin_map_app in Hka, Hkn.
        change (mjoin (map (fun n => (ndefs n).*1) (n :: b))) with ((ndefs n).*1 ++ mjoin (map (fun n => (ndefs n).*1) b)) in *. apply elem_of_app in Hin as [Hin|Hin].
        * apply (Hka x Hin). apply elem_of_app. right. apply elem_of_app. by left.
        * apply NoDup_app in Hkn as (_ & Hd & _). apply (Hd x); [|apply elem_of_app; by left]. apply elem_of_own in Hin as (m & Hm & Hin). apply elem_of_mjoin_map. exists m. split; [done | by apply nouts_nkeys].
      + by intros m ?%elem_of_nil.
      + split; [done|]. split; [by rewrite rkeys_eq|]. split; [done|]. intros Hd. apply (K4 Hd).
  Qed.
End Main.
