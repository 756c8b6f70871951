(** When the conversion succeeds. *)
From stdpp Require Import base list gmap.
From Coq Require Import Lia.
From Verif.Construct Require Import Model Spec.
From Verif.Cfg Require Import Model Spec ProofsBase.
From Verif.LocalRegion Require Import Model Spec Facts.
From Verif.Unswitch Require Import Spec.
From Verif.Sinking Require Import Spec.
From Verif.Hoisting Require Import Spec.
From Verif.Destruct Require Import Model Spec Proofs1 Proofs2 Proofs3 Proofs4 Proofs5 Proofs6 Proofs7.

Definition defined (e : vars) (x : nat) : Prop := is_Some (e !! x).
Lemma mapM_total (e : vars) xs : (forall x, x ∈ xs -> defined e x) -> is_Some (mapM (fun x => e !! x) xs).
Proof. intros H. apply mapM_is_Some, Forall_forall. exact H. Qed.
Lemma mapM_defined (e : vars) xs vs : mapM (fun x => e !! x) xs = Some vs -> forall x, x ∈ xs -> defined e x.
Proof. intros H x Hx. assert (Hs : is_Some (mapM (fun x => e !! x) xs)) by eauto. apply mapM_is_Some in Hs. rewrite Forall_forall in Hs. by apply Hs. Qed.
Lemma insert_vars_dom xs vs (e e' : vars) : insert_vars xs vs e = Some e' -> forall x, defined e' x <-> defined e x \/ x ∈ xs.
Proof.
  intros H x. destruct (insert_vars_inv _ _ _ _ H) as (H1 & _ & _ & H4 & H5). unfold defined. destruct (decide (x ∈ xs)) as [Hin|Hout].
  - split; [by right|]. intros _. apply elem_of_list_lookup in Hin as [j Hj]. rewrite (H5 j x Hj). apply lookup_lt_is_Some_2. rewrite <-H1. by eapply lookup_lt_Some.
  - rewrite H4 by done. tauto.
Qed.
Lemma gamma_outs_dom xb rs outs : forall i e s e' s', gamma_outs xb rs i outs e s = Some (e', s') -> forall x, defined e' x <-> defined e x \/ x ∈ outs.
Proof.
  induction outs as [|y outs IH]; intros i e s e' s' H x; cbn [gamma_outs] in H; [injection H as <- <-; rewrite elem_of_nil; tauto|].
  apply bind_Some in H as (vs & _ & H). apply bind_Some in H as (v0 & _ & H). destruct (forallb _ vs); apply bind_Some in H as (e1 & He & H); rewrite (IH _ _ _ _ _ H), (insert_vars_dom _ _ _ _ He), elem_of_list_singleton, elem_of_cons; tauto.
Qed.
Lemma gamma_outs_total xb rs outs : rs <> [] -> forall i e s, (forall r, r ∈ rs -> length r.2 = i + length outs) -> NoDup outs -> (forall x, x ∈ outs -> e !! x = None) -> is_Some (gamma_outs xb rs i outs e s).
Proof.
  intros Hrs. induction outs as [|y outs IH]; intros i e s Hl Hn He; cbn [gamma_outs]; [eauto|]. apply NoDup_cons in Hn as [Hy Hn].
  assert (Hm : is_Some (mapM (fun r : nat * list nat => r.2 !! i) rs)). { apply mapM_is_Some, Forall_forall. intros r Hr. apply lookup_lt_is_Some_2. rewrite (Hl r Hr). cbn. lia. }
  destruct Hm as [vs Hvs]. rewrite Hvs. cbn. destruct (mapM_lookup _ _ _ Hvs) as [Hlv _]. destruct vs as [|v0 vs]; [destruct rs; done|]. cbn [head mbind option_bind].
  assert (Ey : e !! y = None) by (apply He; by left). cbn [insert_vars]. rewrite Ey.
  assert (Hrec : forall w s2, is_Some (gamma_outs xb rs (S i) outs (<[y := w]> e) s2)).
  { intros w s2. apply IH; [intros r Hr; rewrite (Hl r Hr); cbn; lia | done|]. intros x Hx. rewrite lookup_insert_ne by (intros ->; done). apply He. by right. }
  destruct (forallb _ _); cbn [mbind option_bind]; apply Hrec.
Qed.
Lemma well_names r : well r -> NoDup (names r) /\ (forall n x, n ∈ rnodes r -> x ∈ nins n -> x ∈ names r) /\ forall x, x ∈ rres r -> x ∈ names r.
Proof. intros H. destruct (well_inv r H) as ((A & B & C) & _). done. Qed.
Lemma names_disjoint r x : NoDup (names r) -> x ∈ rargs r -> x ∉ all_outs (rnodes r).
Proof. intros H. apply NoDup_app in H as (_ & H & _). by apply H. Qed.

Section Total.
  Context (opcode : op -> nat).
  Definition node_total (n : node) : Prop := good n -> NoDup (nouts n) -> (forall b, b ∈ bodies n -> sorted b /\ content_free b) -> (forall subs s c, nkind n = KGamma subs -> s ∈ subs -> head (rargs s) = Some c -> ~ uses s c) ->
    forall e s, (forall x, x ∈ nins n -> defined e x) -> (forall x, x ∈ nouts n -> e !! x = None) -> exists e' s', convert_node opcode n e s = Some (e', s') /\ forall x, defined e' x <-> defined e x \/ x ∈ nouts n.
  Definition region_total (r : region) : Prop := well r -> sorted r -> content_free r -> forall e s, (forall x, x ∈ rargs r -> uses r x -> defined e x) -> (forall x, x ∈ all_outs (rnodes r) -> e !! x = None) ->
    exists e' s', convert_region opcode r e s = Some (e', s') /\ forall x, defined e' x <-> defined e x \/ x ∈ all_outs (rnodes r).
  Lemma results_total r e e' : well r -> (forall x, x ∈ rargs r -> uses r x -> defined e x) -> (forall x, defined e' x <-> defined e x \/ x ∈ all_outs (rnodes r)) -> forall x, x ∈ rres r -> defined e' x.
  Proof.
    intros Hw He Hd x Hx. apply Hd. destruct (well_names r Hw) as (_ & _ & Hr). specialize (Hr x Hx). apply elem_of_app in Hr as [Hr|Hr]; [|by right]. left. apply He; [done|]. by right.
  Qed.
  Lemma args_empty r vs er : well r -> insert_vars (rargs r) vs ∅ = Some er -> (forall x, x ∈ all_outs (rnodes r) -> er !! x = None).
  Proof.
    intros Hw H x Hx. destruct (er !! x) eqn:E; [|done]. exfalso. assert (Hd : defined er x) by (by eexists). apply (insert_vars_dom _ _ _ _ H) in Hd as [Hd|Hd]; [unfold defined in Hd; rewrite lookup_empty in Hd; by destruct Hd|]. destruct (well_names r Hw) as (Hn & _). by apply (names_disjoint r x Hn Hd).
  Qed.
  Lemma subs_total eb xb vs outs l : (forall r, r ∈ l -> region_total r /\ well r /\ sorted r /\ content_free r /\ length (rargs r) = S (length vs) /\ length (rres r) = length outs /\ forall c, head (rargs r) = Some c -> ~ uses r c) ->
    forall s, exists rs s', convert_subs (convert_region opcode) eb xb vs l s = Some (rs, s') /\ length rs = length l /\ forall q, q ∈ rs -> length q.2 = length (outs : list oid).
  Proof.
    induction l as [|r l IH]; intros Hf s; [exists [], s; split; [done|]; split; [done|]; by intros q ?%elem_of_nil|].
    destruct (Hf r ltac:(by left)) as (Ht & Hw & Hs & Hc & Hla & Hlr & Hnc). destruct (well_names r Hw) as (Hn & Hni & Hnr). cbn [convert_subs]. fold (convert_subs (convert_region opcode) eb xb vs).
    destruct (rargs r) as [|c args] eqn:Ea; [done|]. cbn in Hla. injection Hla as Hla. cbn [tail]. specialize (Hnc c eq_refl).
    assert (HnD : NoDup (c :: args)) by (rewrite <-Ea; by apply NoDup_app in Hn as (? & _)). apply NoDup_cons in HnD as [Hca HnD].
    destruct (insert_vars_some args vs ∅ Hla HnD) as [er Her]; [intros x _; by rewrite lookup_empty|]. rewrite Her. cbn [mbind option_bind].
    assert (Hdom : forall x, defined er x <-> x ∈ args). { intros x. rewrite (insert_vars_dom _ _ _ _ Her). unfold defined. rewrite lookup_empty. split; [intros [[? ?]|]; done | by right]. }
    assert (Hargs : forall x, x ∈ rargs r -> uses r x -> defined er x). { intros x Hx Hu. apply Hdom. rewrite Ea in Hx. apply elem_of_cons in Hx as [->|Hx]; [done | done]. }
    set (b := nb s). set (s0 := set_cur b (add_edge eb b (create_block s))).
    destruct (Ht Hw Hs Hc er s0 Hargs) as (e1 & s1 & Hr & Hd1).
    { intros x Hx. destruct (er !! x) eqn:E; [|done]. exfalso. apply (names_disjoint r x Hn); [|done]. rewrite Ea. right. apply Hdom. by eexists. }
    rewrite Hr. cbn [mbind option_bind]. destruct (mapM_total e1 (rres r)) as [res Hres]; [by apply (results_total r er)|]. rewrite Hres. cbn [mbind option_bind].
    destruct (IH ltac:(intros q Hq; apply Hf; by right) (add_edge (cur s1) xb s1)) as (rs & s' & H1 & H2 & H3). rewrite H1. cbn [mbind option_bind]. exists ((cur s1, res) :: rs), s'. split; [done|]. split; [cbn; lia|].
    intros q [->|Hq]%elem_of_cons; [|by apply H3]. cbn [snd]. destruct (mapM_lookup _ _ _ Hres) as [Hl _]. lia.
  Qed.
  Lemma simple_total o ins outs : node_total (Node (KSimple o) ins outs).
  Proof.
    intros _ Hn _ _ e s Hi Ho. change (convert_node opcode (Node (KSimple o) ins outs) e s) with (convert_kind opcode (KSimple o) ins outs e s). cbn [convert_kind nins nouts] in *.
    destruct (mapM_total e ins Hi) as [ops ->]. cbn [mbind option_bind]. destruct (insert_vars_some outs (seq (nv s) (length outs)) e) as [e1 He]; [by rewrite seq_length | done | done|]. rewrite He. cbn [mbind option_bind]. eexists _, _. split; [done|]. by apply (insert_vars_dom _ _ _ _ He).
  Qed.
  Lemma gamma_total subs ins outs : (forall r, r ∈ subs -> region_total r) -> node_total (Node (KGamma subs) ins outs).
  Proof.
    intros Hf (Hwf & Hlen & Hb) Hn Hs Hc e s Hi Ho. change (convert_node opcode (Node (KGamma subs) ins outs) e s) with (convert_kind opcode (KGamma subs) ins outs e s). unfold wf_node, wf_gamma in Hwf. cbn [nkind nins nouts] in *. destruct Hwf as [Hl Hw]. destruct ins as [|p es]; [cbn in Hl; lia|]. cbn [convert_kind].
    destruct (Hi p ltac:(by left)) as [pv ->]. cbn [mbind option_bind]. destruct (mapM_total e es) as [vs Hvs]; [intros x Hx; apply Hi; by right|]. rewrite Hvs. cbn [mbind option_bind]. destruct (mapM_lookup _ _ _ Hvs) as [Hlv _].
    assert (Hsubs : forall r, r ∈ subs -> region_total r /\ well r /\ sorted r /\ content_free r /\ length (rargs r) = S (length vs) /\ length (rres r) = length outs /\ forall c, head (rargs r) = Some c -> ~ uses r c).
    { intros r Hr. destruct (Hs r Hr) as [S1 S2]. destruct (Hw r Hr) as (_ & W1 & W2). split; [by apply Hf|]. split; [by apply Hb|]. split; [done|]. split; [done|]. split; [cbn in W1; lia|]. split; [done|]. intros c Hc'. by apply (Hc subs r c). }
    set (xb0 := S (nb s)). match goal with |- context [convert_subs _ ?eb ?xb _ _ ?s0] => destruct (subs_total eb xb vs outs subs Hsubs s0) as (rs & s2 & H1 & H2 & H3) end.
    fold (convert_region opcode). rewrite H1. cbn [mbind option_bind]. specialize (Hlen subs eq_refl). destruct (gamma_outs_total xb0 rs outs) with (i := 0) (e := e) (s := s2) as [[e1 s3] Hg]; [destruct rs; [cbn in H2; lia | done] | exact H3 | done | done|].
    rewrite Hg. cbn [mbind option_bind]. eexists _, _. split; [done|]. by apply (gamma_outs_dom _ _ _ _ _ _ _ _ Hg).
  Qed.
  Lemma theta_phis_length b eb ls : forall s pres s', theta_phis b eb ls s = (pres, s') -> length pres = length ls.
  Proof.
    induction ls as [|[[pre post] v] ls IH]; intros s pres s' H; cbn [theta_phis] in H; [by injection H as <- <-|].
    destruct (requires_phi b pre post); destruct (theta_phis b eb ls _) as [vs s0] eqn:E; injection H as <- <-; cbn; f_equal; by eapply IH.
  Qed.
  Lemma theta_total b ins outs : region_total b -> node_total (Node (KTheta b) ins outs).
  Proof.
    intros Hf (Hwf & Hlen & Hb) Hn Hs Hc e s Hi Ho. change (convert_node opcode (Node (KTheta b) ins outs) e s) with (convert_kind opcode (KTheta b) ins outs e s). unfold wf_node in Hwf. cbn [nkind nins nouts] in *. destruct Hwf as (Hla & Hlr & Hlo). cbn [convert_kind].
    assert (Hw : well b) by (apply Hb; by left). destruct (Hs b ltac:(by left)) as [S1 S2]. destruct (well_names b Hw) as (Hnn & _).
    destruct (mapM_total e ins Hi) as [vs Hvs]. rewrite Hvs. cbn [mbind option_bind]. destruct (mapM_lookup _ _ _ Hvs) as [Hlv _].
    destruct (theta_phis b (nb s) _ _) as [pres s1] eqn:Et. pose proof (theta_phis_length _ _ _ _ _ _ Et) as Hlp. destruct (rres b) as [|p res] eqn:Er; [done|]. cbn in Hlr. injection Hlr as Hlr. cbn [tail head] in *. rewrite !zip_with_length in Hlp.
    destruct (insert_vars_some (rargs b) pres ∅) as [er Her]; [lia | by apply NoDup_app in Hnn as (? & _) | intros x _; by rewrite lookup_empty|]. rewrite Her. cbn [mbind option_bind].
    assert (Hargs : forall x, x ∈ rargs b -> uses b x -> defined er x). { intros x Hx _. apply (insert_vars_dom _ _ _ _ Her). by right. }
    destruct (Hf Hw S1 S2 er s1 Hargs (args_empty b pres er Hw Her)) as (e1 & s2 & Hr & Hd). fold (convert_region opcode). rewrite Hr. cbn [mbind option_bind].
    assert (Hres : forall x, x ∈ p :: res -> defined e1 x) by (rewrite <-Er; by apply (results_total b er)).
    destruct (mapM_total e1 res) as [posts Hposts]; [intros x Hx; apply Hres; by right|]. rewrite Hposts. cbn [mbind option_bind]. destruct (mapM_lookup _ _ _ Hposts) as [Hlq _].
    destruct (insert_vars_some outs posts e) as [e2 He2]; [lia | done | done|]. rewrite He2. cbn [mbind option_bind]. destruct (Hres p ltac:(by left)) as [pv ->]. cbn [mbind option_bind]. eexists _, _. split; [done|]. by apply (insert_vars_dom _ _ _ _ He2).
  Qed.
  Lemma nodes_total l : (forall n, n ∈ l -> node_total n /\ good n /\ (forall b, b ∈ bodies n -> sorted b /\ content_free b) /\ (forall subs s c, nkind n = KGamma subs -> s ∈ subs -> head (rargs s) = Some c -> ~ uses s c)) ->
    NoDup (all_outs l) -> forall e s, (forall l1 n l2 x, l = l1 ++ n :: l2 -> x ∈ nins n -> defined e x \/ x ∈ all_outs l1) -> (forall x, x ∈ all_outs l -> e !! x = None) ->
    exists e' s', convert_nodes (convert_node opcode) l e s = Some (e', s') /\ forall x, defined e' x <-> defined e x \/ x ∈ all_outs l.
  Proof.
    induction l as [|n l IH]; intros Hf Hn e s Hi Ho; [exists e, s; split; [done|]; intros x; cbn; rewrite elem_of_nil; tauto|].
    rewrite all_outs_cons in Hn, Ho |- *. apply NoDup_app in Hn as (Hn1 & Hn2 & Hn3). destruct (Hf n ltac:(by left)) as (Ht & Hg & Hb & Hc).
    destruct (Ht Hg Hn1 Hb Hc e s) as (e1 & s1 & H1 & Hd1); [|intros x Hx; apply Ho; apply elem_of_app; by left|].
    { intros x Hx. destruct (Hi [] n l x eq_refl Hx) as [|Hx']; [done|]. cbn in Hx'. by apply elem_of_nil in Hx'. }
    change (convert_nodes (convert_node opcode) (n :: l) e s) with ('(e, s) ← convert_node opcode n e s; convert_nodes (convert_node opcode) l e s). rewrite H1. cbn [mbind option_bind].
    destruct (IH ltac:(intros m Hm; apply Hf; by right) Hn3 e1 s1) as (e2 & s2 & H2 & Hd2).
    - intros l1 m l2 x -> Hx. destruct (Hi (n :: l1) m l2 x eq_refl Hx) as [Hx'|Hx']; [left; apply Hd1; by left|]. rewrite all_outs_cons, elem_of_app in Hx'. destruct Hx' as [Hx'|Hx']; [left; apply Hd1; by right | by right].
    - intros x Hx. destruct (e1 !! x) eqn:E; [|done]. exfalso. assert (Hd : defined e1 x) by (by eexists). apply Hd1 in Hd as [Hd|Hd]; [|by apply (Hn2 x)]. unfold defined in Hd. rewrite Ho in Hd by (apply elem_of_app; by right). by destruct Hd.
    - exists e2, s2. split; [done|]. intros x. rewrite Hd2, Hd1, elem_of_app. tauto.
  Qed.
  Lemma convert_region_total r : region_total r.
  Proof.
    revert r. apply (all_region node_total region_total).
    - intros o ins outs. apply simple_total.
    - intros subs ins outs HF. apply gamma_total. by rewrite Forall_forall in HF.
    - intros b ins outs HF. by apply theta_total.
    - intros args ns res HF Hw Hs Hc e s Ha Ho. rewrite Forall_forall in HF. cbn [convert_region]. fold (convert_node opcode). destruct (well_inv _ Hw) as (_ & W1 & W2). destruct (well_names _ Hw) as (Hn & _). inversion Hs as [r0 H1 H2]; subst. inversion Hc as [r0 H3 H4]; subst. cbn [rnodes rargs] in *.
      destruct (nodes_total ns) with (e := e) (s := next_block s) as (e1 & s1 & E & Hd).
      + intros n Hin. destruct (W1 n Hin) as [X1 X2]. split; [by apply HF|]. split; [split; [done|]; split; [done|]; intros b Hb; by eapply W2|]. split; [intros b Hb; split; [by eapply H2 | by eapply H4]|]. intros subs q c K1 K2 K3. by eapply H3.
      + by apply NoDup_app in Hn as (_ & _ & ?).
      + intros l1 n l2 x -> Hx. destruct (H1 l1 n l2 x eq_refl Hx) as [Hx'|]; [|by right]. left. apply Ha; [done|]. left. exists n. split; [cbn; apply elem_of_app; right; by left | done].
      + exact Ho.
      + rewrite E. cbn [mbind option_bind]. eexists _, _. split; [done | exact Hd].
  Qed.
  (** the other way round: what must be if the conversion succeeds *)
  Definition inside (n : node) : Prop := (forall b, b ∈ bodies n -> sorted b /\ content_free b) /\ (forall subs s c, nkind n = KGamma subs -> s ∈ subs -> head (rargs s) = Some c -> ~ uses s c).
  Definition node_needs (n : node) : Prop := good n -> forall e s e' s', convert_node opcode n e s = Some (e', s') -> (forall x, x ∈ nins n -> defined e x) /\ (forall x, defined e' x <-> defined e x \/ x ∈ nouts n) /\ inside n.
  Definition region_needs (r : region) : Prop := well r -> forall e s e' s', convert_region opcode r e s = Some (e', s') -> (forall x, defined e' x <-> defined e x \/ x ∈ all_outs (rnodes r)) /\
    (forall n x, n ∈ rnodes r -> x ∈ nins n -> defined e x \/ x ∈ all_outs (rnodes r)) /\ ((forall x, defined e x -> x ∈ rargs r) -> sorted r /\ content_free r).
  Lemma nodes_needs l : (forall n, n ∈ l -> node_needs n /\ good n) -> forall e s e' s', convert_nodes (convert_node opcode) l e s = Some (e', s') ->
    (forall x, defined e' x <-> defined e x \/ x ∈ all_outs l) /\ (forall l1 n l2 x, l = l1 ++ n :: l2 -> x ∈ nins n -> defined e x \/ x ∈ all_outs l1) /\ forall n, n ∈ l -> inside n.
  Proof.
    induction l as [|n l IH]; intros Hf e s e' s' H.
    - injection H as <- <-. split; [intros x; cbn; rewrite elem_of_nil; tauto|]. split; [by intros [|? l1] m l2 x Hx | by intros m ?%elem_of_nil].
    - change (convert_nodes (convert_node opcode) (n :: l) e s) with ('(e, s) ← convert_node opcode n e s; convert_nodes (convert_node opcode) l e s) in H. apply bind_Some in H as ([e1 s1] & H1 & H2).
      destruct (Hf n ltac:(by left)) as [Hn Hg]. destruct (Hn Hg _ _ _ _ H1) as (A1 & A2 & A3). destruct (IH ltac:(intros m Hm; apply Hf; by right) _ _ _ _ H2) as (B1 & B2 & B3). split; [|split].
      + intros x. rewrite all_outs_cons, B1, A2, elem_of_app. tauto.
      + intros [|m l1] k l2 x E Hx; injection E as -> E; [left; by apply A1|]. rewrite all_outs_cons, elem_of_app. destruct (B2 l1 k l2 x E Hx) as [Hx'|Hx']; [|tauto]. apply A2 in Hx'. tauto.
      + intros m [->|Hm]%elem_of_cons; [done | by apply B3].
  Qed.
  Lemma subs_needs eb xb vs l : (forall r, r ∈ l -> region_needs r /\ well r) -> forall s rs s', convert_subs (convert_region opcode) eb xb vs l s = Some (rs, s') ->
    forall r, r ∈ l -> sorted r /\ content_free r /\ forall c, head (rargs r) = Some c -> ~ uses r c.
  Proof.
    induction l as [|q l IH]; intros Hf s rs s' H r Hr; [by apply elem_of_nil in Hr|]. cbn [convert_subs] in H. fold (convert_subs (convert_region opcode) eb xb vs) in H. apply bind_Some in H as (er & Her & H). apply bind_Some in H as ([e1 s1] & Hc & H). apply bind_Some in H as (res & Hres & H). apply bind_Some in H as ([rs' s''] & Hs & _).
    apply elem_of_cons in Hr as [->|Hr]; [|by apply (IH ltac:(intros m Hm; apply Hf; by right) _ _ _ Hs)]. destruct (Hf q ltac:(by left)) as [Hn Hw]. destruct (Hn Hw _ _ _ _ Hc) as (A1 & A2 & A3).
    assert (Hdom : forall x, defined er x <-> x ∈ tail (rargs q)). { intros x. rewrite (insert_vars_dom _ _ _ _ Her). unfold defined. rewrite lookup_empty. split; [intros [[? ?]|]; done | by right]. }
    destruct A3 as [S1 S2]; [intros x Hx; apply Hdom in Hx; destruct (rargs q); [by apply elem_of_nil in Hx | by right]|]. split; [done|]. split; [done|]. intros c Hhc.
    destruct (well_names q Hw) as (Hnd & _). destruct (rargs q) as [|c' args] eqn:Ea; [done|]. injection Hhc as ->. assert (Hno : ~ defined er c /\ c ∉ all_outs (rnodes q)).
    { split; [|apply names_disjoint; [done | rewrite Ea; by left]]. intros Hd. apply Hdom in Hd. cbn in Hd. unfold names in Hnd. rewrite Ea in Hnd. cbn in Hnd. apply NoDup_cons in Hnd as [Hnd _]. apply Hnd. apply elem_of_app. by left. }
    intros [(n & Hn' & Hx)|Hx]; [destruct (A2 n c Hn' Hx); tauto|]. apply (mapM_defined _ _ _ Hres) in Hx. apply A1 in Hx. tauto.
  Qed.
  Lemma node_needs_all : (forall n, node_needs n) /\ forall r, region_needs r.
  Proof.
    assert (HS : forall o ins outs, node_needs (Node (KSimple o) ins outs)).
    { intros o ins outs _ e s e' s' H. change (convert_kind opcode (KSimple o) ins outs e s = Some (e', s')) in H. cbn [convert_kind] in H. apply bind_Some in H as (ops & Hops & H). apply bind_Some in H as (e1 & He & [= <- <-]). cbn [nins nouts]. split; [by apply (mapM_defined _ _ _ Hops)|]. split; [by apply (insert_vars_dom _ _ _ _ He)|]. split; [by intros b ?%elem_of_nil | done]. }
    assert (HG : forall subs ins outs, Forall region_needs subs -> node_needs (Node (KGamma subs) ins outs)).
    { intros subs ins outs HF (_ & _ & Hb) e s e' s' H. rewrite Forall_forall in HF. change (convert_kind opcode (KGamma subs) ins outs e s = Some (e', s')) in H. destruct ins as [|p es]; [done|]. cbn [convert_kind] in H. apply bind_Some in H as (pv & Hpv & H). apply bind_Some in H as (vs & Hvs & H). apply bind_Some in H as ([rs s2] & Hs & H). apply bind_Some in H as ([e1 s3] & Ho & [= <- <-]). cbn [nins nouts].
      pose proof (subs_needs _ _ _ _ (fun r Hr => conj (HF r Hr) (Hb r Hr)) _ _ _ Hs) as Hsub. split; [intros x [->|Hx]%elem_of_cons; [by eexists | by apply (mapM_defined _ _ _ Hvs)]|]. split; [by apply (gamma_outs_dom _ _ _ _ _ _ _ _ Ho)|]. split.
      - intros b Hin. destruct (Hsub b Hin) as (S1 & S2 & _). done.
      - intros subs' q c [= <-] Hq Hc. destruct (Hsub q Hq) as (_ & _ & S3). by apply S3. }
    assert (HT : forall b ins outs, region_needs b -> node_needs (Node (KTheta b) ins outs)).
    { intros b ins outs HF (_ & _ & Hb) e s e' s' H. change (convert_kind opcode (KTheta b) ins outs e s = Some (e', s')) in H. cbn [convert_kind] in H. apply bind_Some in H as (vs & Hvs & H). destruct (theta_phis b (nb s) _ _) as [pres s2]. apply bind_Some in H as (er & Her & H). apply bind_Some in H as ([e1 s3] & Hr & H). apply bind_Some in H as (posts & Hposts & H). apply bind_Some in H as (e2 & He2 & H). apply bind_Some in H as (q & Hq & H). apply bind_Some in H as (pv & Hpv & H). injection H as <- <-. cbn [nins nouts].
      split; [by apply (mapM_defined _ _ _ Hvs)|]. split; [by apply (insert_vars_dom _ _ _ _ He2)|]. destruct (HF (Hb b ltac:(by left)) _ _ _ _ Hr) as (_ & _ & A3). split; [|done]. intros b' ->%elem_of_list_singleton. apply A3. intros x Hx. apply (insert_vars_dom _ _ _ _ Her) in Hx as [Hx|]; [|done]. unfold defined in Hx. rewrite lookup_empty in Hx. by destruct Hx. }
    assert (HR : forall args ns res, Forall node_needs ns -> region_needs (Region args ns res)).
    { intros args ns res HF Hw e s e' s' H. rewrite Forall_forall in HF. cbn [convert_region] in H. fold (convert_node opcode) in H. apply bind_Some in H as ([e1 t] & H & [= <- <-]). destruct (well_inv _ Hw) as (_ & W1 & W2). cbn [rnodes rargs] in *.
      assert (Hg : forall n, n ∈ ns -> node_needs n /\ good n). { intros n Hn. destruct (W1 n Hn) as [X1 X2]. split; [by apply HF|]. split; [done|]. split; [done|]. intros b Hb'. by eapply W2. }
      destruct (nodes_needs ns Hg _ _ _ _ H) as (A1 & A2 & A3). split; [done|]. split.
      - intros n x Hn Hx. apply elem_of_list_split in Hn as (l1 & l2 & ->). destruct (A2 l1 n l2 x eq_refl Hx) as [|Hx']; [by left|]. right. apply elem_all_outs in Hx' as (m & Hm & Hx'). apply elem_all_outs. exists m. split; [apply elem_of_app; by left | done].
      - intros He. split; constructor; cbn [rnodes rargs].
        + intros l1 n l2 x E Hx. destruct (A2 l1 n l2 x E Hx) as [Hx'|]; [left; by apply He | by right].
        + intros n b Hn Hb. by apply A3 with n.
        + intros n subs q c Hn Hk Hq Hc. destruct (A3 n Hn) as [_ X]. by eapply X.
        + intros n b Hn Hb. by apply A3 with n. }
    split; [exact (all_node node_needs region_needs HS HG HT HR) | exact (all_region node_needs region_needs HS HG HT HR)].
  Qed.
End Total.

Lemma create_graph_iff opcode r params next : well r -> length params = length (rargs r) -> is_Some (create_graph opcode r params next) <-> sorted r /\ content_free r.
Proof.
  intros Hw Hl. destruct (well_names r Hw) as (Hn & _). destruct (insert_vars_some (rargs r) params ∅) as [e He]; [done | by apply NoDup_app in Hn as (? & _) | intros x _; by rewrite lookup_empty|]. unfold create_graph. rewrite He. cbn [mbind option_bind]. set (s := State {[2 := Block [] []]} 2 3 next).
  assert (Hdom : forall x, defined e x <-> x ∈ rargs r). { intros x. rewrite (insert_vars_dom _ _ _ _ He). unfold defined. rewrite lookup_empty. split; [intros [[? ?]|]; done | by right]. }
  split.
  - intros [gr H]. apply bind_Some in H as ([e' s'] & Hr & _). destruct (node_needs_all opcode) as [_ Hall]. destruct (Hall r Hw _ _ _ _ Hr) as (_ & _ & A3). apply A3. intros x. apply Hdom.
  - intros [Hs Hc]. destruct (convert_region_total opcode r Hw Hs Hc e s) as (e' & s' & Hr & Hd); [intros x Hx _; by apply Hdom | by apply (args_empty r params)|]. rewrite Hr. cbn [mbind option_bind].
    destruct (mapM_total e' (rres r)) as [rs Hrs]; [apply (results_total r e e' Hw); [intros x Hx _; by apply Hdom | done]|]. rewrite Hrs. cbn. eauto.
Qed.
