(** The graph of a lambda node's region is valid: the conversion. *)
From stdpp Require Import base list gmap.
From Coq Require Import Lia.
From Verif.Construct Require Import Model Spec.
From Verif.Cfg Require Import Model Spec ProofsBase.
From Verif.LocalRegion Require Import Model Spec Facts.
From Verif.Unswitch Require Import Spec.
From Verif.Sinking Require Import Spec.
From Verif.Hoisting Require Import Spec.
From Verif.Destruct Require Import Model Spec Proofs1 Proofs2 Proofs3 Proofs4 Proofs5 Proofs6.

Notation rel e s e' s' D := (correct (fun _ _ => None) (fun _ : val => true) False e s e' s' D (fun _ => True)) (only parsing).
Notation region_rel f r := (region_correct (fun _ _ => None) id (fun _ _ => None) (fun _ : val => true) False f r) (only parsing).
Section Convert.
  Context (opcode : op -> nat).
  Definition good (n : node) : Prop := wf_node n /\ (forall subs, nkind n = KGamma subs -> 1 < length subs) /\ (forall b, b ∈ bodies n -> well b).
  Lemma region_rel_ok r : well r -> region_rel (convert_region opcode) r.
  Proof. intros H. apply convert_region_correct; [intros [] | exact H]. Qed.
  Lemma node_rel n e s e' s' : good n -> convert_node opcode n e s = Some (e', s') -> ok s -> bounded e (nv s) -> exists H, correct (fun _ _ => None) (fun _ : val => true) False e s e' s' (nouts n) H.
  Proof.
    destruct n as [k ins outs]. intros (Hwf & Hlen & Hb) H Hk Hbd. change (convert_kind opcode k ins outs e s = Some (e', s')) in H. destruct k as [o|subs|b].
    - eexists. exact (simple_correct opcode (fun _ _ => None) id (fun _ _ => None) (fun _ => true) False o ins outs e s e' s' (fun h => match h with end) H Hk Hbd).
    - unfold wf_node, wf_gamma in Hwf. cbn [nkind nins nouts] in Hwf. destruct Hwf as [Hl Hw]. destruct ins as [|p es]; [cbn in Hl; lia|]. eexists. eapply (gamma_correct opcode (fun _ _ => None) id); [| by apply Hlen | | exact H | done | done].
      + intros r Hr. apply region_rel_ok. by apply Hb.
      + intros r Hr. destruct (Hw r Hr) as ((Hn & _) & H1 & H2). done.
    - unfold wf_node in Hwf. cbn [nkind nins nouts] in Hwf. destruct Hwf as (H1 & H2 & H3). assert (Hwb : well b) by (apply Hb; by left). eexists. eapply (theta_correct opcode (fun _ _ => None) id); [by apply region_rel_ok | | done | done | done | exact H | done | done]. by destruct (well_inv _ Hwb) as ((Hn & _) & _).
  Qed.
  (** the conversion keeps the invariants, and makes no edges to blocks that there were before *)
  Definition keeps (s s' : state) : Prop := (forall P Q N : nat -> Prop, V (bl s) (P ∪ cur s) Q N -> V (bl s') (P ∪ cur s') Q N) /\ (forall m, m < nb s -> forall p, pred (bl s') p m <-> pred (bl s) p m).
  Lemma keeps_refl s : keeps s s.
  Proof. split; [tauto | done]. Qed.
  Lemma keeps_trans s s' s'' : nb s <= nb s' -> keeps s s' -> keeps s' s'' -> keeps s s''.
  Proof. intros Hn [A1 A2] [B1 B2]. split; [by auto|]. intros m Hm p. rewrite B2 by lia. by apply A2. Qed.
  Lemma keeps_next s : ok s -> keeps s (next_block s).
  Proof. intros Hk. split; [intros P Q N HV; by apply next_block_V|]. intros m Hm p. rewrite next_block_pred by done. intuition lia. Qed.
  Lemma nodes_keep l : (forall n, n ∈ l -> good n) -> (forall n e s e' s', n ∈ l -> convert_node opcode n e s = Some (e', s') -> ok s -> bounded e (nv s) -> keeps s s') ->
    forall e s e' s', convert_nodes (convert_node opcode) l e s = Some (e', s') -> ok s -> bounded e (nv s) -> keeps s s'.
  Proof.
    induction l as [|n l IH]; intros Hg Hf e s e' s' H Hk Hb; [injection H as <- <-; apply keeps_refl|].
    change (convert_nodes (convert_node opcode) (n :: l) e s) with ('(e, s) ← convert_node opcode n e s; convert_nodes (convert_node opcode) l e s) in H. apply bind_Some in H as ([e1 s1] & H1 & H2).
    destruct (node_rel _ _ _ _ _ (Hg n ltac:(by left)) H1 Hk Hb) as [Hx A]. eapply keeps_trans; [exact (g_nb _ _ (c_grow _ _ _ _ _ _ _ _ _ A)) | eapply Hf; [by left | exact H1 | done | done]|].
    eapply IH; [| |exact H2 | exact (c_ok _ _ _ _ _ _ _ _ _ A) | exact (c_bound _ _ _ _ _ _ _ _ _ A)]; [intros m Hm; apply Hg; by right | intros m e2 s2 e3 s3 Hm; apply Hf; by right].
  Qed.
  Lemma simple_keep o ins outs e s e' s' : convert_node opcode (Node (KSimple o) ins outs) e s = Some (e', s') -> keeps s s'.
  Proof.
    intros H. change (convert_kind opcode (KSimple o) ins outs e s = Some (e', s')) in H. cbn [convert_kind] in H. apply bind_Some in H as (ops & Hops & H). apply bind_Some in H as (e1 & He & [= <- <-]). split.
    - intros P Q N HV. cbn [bl cur append]. apply V_tac; [by right | exact HV].
    - intros m Hm p. cbn [bl append]. by apply pred_alter.
  Qed.
  Definition region_keeps (r : region) : Prop := forall e s e' s', convert_region opcode r e s = Some (e', s') -> ok s -> bounded e (nv s) -> keeps s s'.
  (** what is known of the blocks after a region *)
  Lemma region_blocks r e s e' s' : well r -> convert_region opcode r e s = Some (e', s') -> ok s -> bounded e (nv s) ->
    ok s' /\ bounded e' (nv s') /\ S (nb s) < nb s' /\ nv s <= nv s' /\ S (cur s') = nb s' /\ bl s' !! cur s' = Some (Block [] []) /\ (forall n, n < nb s -> n <> cur s -> bl s' !! n = bl s !! n) /\ (forall c, bl s !! cur s = Some (Block c []) -> bl s' !! cur s = Some (Block c [nb s])).
  Proof.
    intros Hw H Hk Hb. destruct (region_rel_ok r Hw _ _ _ _ H Hk Hb) as (t & -> & Ht). pose proof (c_ok _ _ _ _ _ _ _ _ _ Ht) as Hkt. pose proof (c_grow _ _ _ _ _ _ _ _ _ Ht) as Hg. pose proof (ok_cur_lt _ Hkt). pose proof (g_nb _ _ Hg) as Hn. pose proof (g_nv _ _ Hg) as Hv. pose proof (g_cur _ _ Hg) as Hc. pose proof (ok_cur_lt _ Hk). change (nb (next_block s)) with (S (nb s)) in *. change (nv (next_block s)) with (nv s) in *. change (cur (next_block s)) with (nb s) in *.
    assert (Hold : forall n, n < nb s -> bl (next_block t) !! n = bl (next_block s) !! n). { intros n Hn'. rewrite (next_block_bl t) by done. rewrite decide_False, decide_False by lia. apply (g_old _ _ Hg); cbn; lia. }
    split; [by apply next_block_ok|]. split; [exact (c_bound _ _ _ _ _ _ _ _ _ Ht)|]. split; [cbn; lia|]. split; [cbn; lia|]. split; [done|]. split; [rewrite next_block_bl by done; by rewrite decide_True|]. split.
    - intros n Hn' Hne. rewrite Hold by done. rewrite next_block_bl by done. rewrite decide_False, decide_False by lia. done.
    - intros c Hc'. rewrite Hold by lia. rewrite next_block_bl by done. rewrite decide_False, decide_True by lia. by rewrite Hc'.
  Qed.
  Lemma subs_keep eb xb vs l : (forall r, r ∈ l -> well r /\ region_keeps r) -> forall s rs s', convert_subs (convert_region opcode) eb xb vs l s = Some (rs, s') ->
    dom_ok s -> 1 < eb < nb s -> 1 < xb < nb s -> eb <> xb -> (forall v, v ∈ vs -> v < nv s) -> bl s !! xb = Some (Block [] []) ->
    (forall P Q N : nat -> Prop, P eb -> V (bl s) P Q (N ∪ xb) -> V (bl s') P Q (N ∪ xb)) /\ (forall p m, m < nb s -> pred (bl s') p m <-> pred (bl s) p m \/ (m = xb /\ p ∈ map fst rs)).
  Proof.
    induction l as [|r l IH]; intros Hf s rs s' H Hd Heb Hxb Hne Hvs Hbx.
    - injection H as <- <-. split; [tauto|]. intros p m Hm. cbn. rewrite elem_of_nil. tauto.
    - cbn [convert_subs] in H. fold (convert_subs (convert_region opcode) eb xb vs) in H. apply bind_Some in H as (er & Her & H). set (b := nb s) in *. set (s0 := set_cur b (add_edge eb b (create_block s))) in *. apply bind_Some in H as ([e1 s1] & Hr & H). apply bind_Some in H as (res & Hres & H). set (s2 := add_edge (cur s1) xb s1) in *. apply bind_Some in H as ([rs' s''] & Hs & [= <- <-]).
      assert (Hbl0 : forall n, bl s0 !! n = if decide (n = b) then Some (Block [] []) else if decide (n = eb) then (fun c => Block (code c) (succ c ++ [b])) <$> bl s !! n else bl s !! n).
      { intros n. cbn. case_decide as E1; [subst n; rewrite lookup_alter_ne by (unfold b; lia); by rewrite lookup_insert|]. case_decide as E2; [subst n; rewrite lookup_alter, lookup_insert_ne by (unfold b; lia); done|]. rewrite lookup_alter_ne, lookup_insert_ne by done. done. }
      pose proof (dom_exit s Hd) as Hex. pose proof (dom_fresh s b Hd ltac:(done)) as Hfresh. destruct Hd as [Hd1 Hd2]. assert (Hseb : is_Some (bl s !! eb)) by (by apply Hd2). assert (Hk0 : ok s0).
      { split; [cbn; lia| |exists []; rewrite Hbl0; cbn; by rewrite decide_True]. intros n. rewrite Hbl0. pose proof (Hd2 n) as Hd. cbn [nb s0 set_cur add_edge create_block]. case_decide as E1; [subst n; unfold b; split; [lia | eauto]|]. fold b in Hd |- *. case_decide as E2; [rewrite fmap_is_Some|]; rewrite Hd; lia. }
      assert (Hb0 : bounded er (nv s0)). { intros x v Hx. apply (insert_vars_cases _ _ _ _ _ _ Her) in Hx as [Hx|(j & _ & Hj)]; [by rewrite lookup_empty in Hx|]. apply Hvs. by eapply elem_of_list_lookup_2. }
      destruct (Hf r ltac:(by left)) as [Hw Hkr]. destruct (Hkr _ _ _ _ Hr Hk0 Hb0) as [V1 V2]. destruct (region_blocks r _ _ _ _ Hw Hr Hk0 Hb0) as (R1 & R2 & R3 & R4 & R5 & R6 & R7 & R8).
      change (nb s0) with (S b) in *. change (nv s0) with (nv s) in *. change (cur s0) with b in *.
      assert (Hbx1 : bl s1 !! xb = Some (Block [] [])). { rewrite R7 by lia. rewrite Hbl0, decide_False, decide_False by (done || lia). done. }
      assert (Hbl2 : bl s2 = alter (fun b => Block (code b) (succ b ++ [xb])) (cur s1) (bl s1)) by done.
      destruct (IH ltac:(intros r' Hr'; apply Hf; by right) s2 rs' s'' Hs) as [J1 J2].
      { split; [cbn; lia|]. intros n. rewrite Hbl2, is_Some_alter. apply (ok_dom s1 R1). }
      { change (nb s2) with (nb s1). lia. }
      { change (nb s2) with (nb s1). lia. }
      { done. }
      { intros v Hv. specialize (Hvs v Hv). change (nv s2) with (nv s1). lia. }
      { rewrite Hbl2, lookup_alter_ne by lia. done. }
      split.
      + intros P Q N HP HV. apply J1; [done|]. rewrite Hbl2. eapply V_weaken; [| | |eapply (V_goto _ P Q (N ∪ xb) (cur s1) xb); [exact R6 | right; exists (Block [] []); split; [done | right; apply philess_nil] | by apply ok_exit|]].
        * done.
        * done.
        * cbv beta. tauto.
        * apply V1. unfold s0. cbn [set_cur add_edge create_block bl cur]. fold b. eapply V_weaken; [| | |eapply (V_edge _ (P ∪ b) Q (N ∪ xb ∪ b) eb b); [rewrite lookup_insert_ne by lia; done | by left | right; exists (Block [] []); split; [by rewrite lookup_insert | right; apply philess_nil] | rewrite lookup_insert_ne by (unfold exit; lia); done | by apply V_new]].
          -- done.
          -- done.
          -- cbv beta. tauto.
      + intros p m Hm. rewrite J2 by (change (nb s2) with (nb s1); lia). rewrite Hbl2, pred_edge by (rewrite R6; eauto). rewrite V2 by lia. unfold s0. cbn [set_cur add_edge create_block bl cur]. fold b. rewrite pred_edge by (rewrite lookup_insert_ne by lia; done). rewrite pred_new by done. cbn [map fst]. rewrite elem_of_cons. assert (m <> b) by lia. tauto.
  Qed.
  Lemma gamma_keep subs ins outs e s e' s' : good (Node (KGamma subs) ins outs) -> (forall r, r ∈ subs -> region_keeps r) -> convert_node opcode (Node (KGamma subs) ins outs) e s = Some (e', s') -> ok s -> bounded e (nv s) -> keeps s s'.
  Proof.
    intros (Hwf & Hlen & Hbo) Hf H Hk Hb. change (convert_kind opcode (KGamma subs) ins outs e s = Some (e', s')) in H. destruct ins as [|p0 es]; [done|]. cbn [convert_kind] in H. set (eb := nb s) in *. set (xb := S eb) in *.
    apply bind_Some in H as (pv & Hpv & H). set (s1 := append eb (Tac (BranchOn pv)) 0 _) in H. apply bind_Some in H as (vs & Hvs & H). apply bind_Some in H as ([rs s2] & Hs & H). apply bind_Some in H as ([e1 s3] & Ho & [= <- <-]).
    assert (Hlen' : 1 < length subs) by (by apply Hlen). assert (Hw : forall r, r ∈ subs -> well r) by exact Hbo.
    destruct (ok_cur s Hk) as [c Hc]. pose proof (ok_cur_lt _ Hk) as Hlt. pose proof (ok_low s Hk) as Hlow.
    assert (Fe : bl s !! eb = None) by (by apply ok_fresh). assert (Fx : bl s !! xb = None) by (apply ok_fresh; [done | unfold xb; lia]). assert (Fexit : bl s !! exit = None) by (by apply ok_exit).
    assert (Hexb : eb <> xb) by (unfold xb; lia).
    set (B1 := <[eb := Block [] []]> (bl s)) in *. set (B2 := <[xb := Block [] []]> B1) in *. set (B3 := alter (fun b => Block (code b) (succ b ++ [eb])) (cur s) B2) in *. assert (E1 : bl s1 = alter (fun b => Block (code b ++ [Tac (BranchOn pv)]) (succ b)) eb B3) by done.
    assert (Hbl1 : forall n, bl s1 !! n = if decide (n = eb) then Some (Block [Tac (BranchOn pv)] []) else if decide (n = xb) then Some (Block [] []) else if decide (n = cur s) then Some (Block c [eb]) else bl s !! n).
    { intros n. rewrite E1. unfold B3, B2, B1. case_decide as X1; [subst n; rewrite lookup_alter, lookup_alter_ne, lookup_insert_ne, lookup_insert by (unfold xb, eb; lia); done|]. rewrite lookup_alter_ne by done.
      case_decide as X2; [subst n; rewrite lookup_alter_ne, lookup_insert by (unfold xb, eb; lia); done|]. case_decide as X3; [subst n; rewrite lookup_alter, !lookup_insert_ne by (unfold xb, eb in *; lia); by rewrite Hc|]. rewrite lookup_alter_ne, !lookup_insert_ne by done. done. }
    assert (Hnb1 : nb s1 = S xb) by done. assert (Hnv1 : nv s1 = nv s) by done.
    assert (Hd1 : dom_ok s1). { split; [lia|]. intros n. rewrite Hbl1, Hnb1. pose proof (ok_dom s Hk n) as Hd. fold eb in Hd. case_decide as X1; [subst n; split; [unfold xb; lia | eauto]|]. case_decide as X2; [subst n; split; [unfold xb; lia | eauto]|]. case_decide as X3; [subst n; split; [unfold xb; lia | eauto]|]. rewrite Hd. unfold xb in *. lia. }
    assert (Hvb : forall v, v ∈ vs -> v < nv s). { intros v Hv. destruct (mapM_elem _ _ _ _ Hvs Hv) as (x & _ & Hx). by apply (Hb x). }
    assert (Hxb1 : bl s1 !! xb = Some (Block [] [])) by (rewrite Hbl1, decide_False, decide_True by done; done).
    destruct (convert_subs_ok (fun _ _ => None) id (fun _ _ => None) (fun _ => true) False _ _ _ _ _ (fun r Hr => region_rel_ok r (Hw r Hr)) _ _ _ Hs Hd1) as (K1 & K2 & K3 & K4 & K5 & K6 & K7 & K8 & bs & K9 & K10 & _); [unfold xb in *; lia | unfold xb in *; lia | done|].
    destruct (subs_keep _ _ _ _ (fun r Hr => conj (Hw r Hr) (Hf r Hr)) _ _ _ Hs Hd1) as [S1 S2]; [unfold xb in *; lia | unfold xb in *; lia | done | done | done|].
    assert (Hxb2 : bl s2 !! xb = Some (Block [] [])) by (rewrite K4 by (unfold xb in *; lia); done).
    assert (Heb2 : bl s2 !! eb = Some (Block [Tac (BranchOn pv)] bs)). { apply (K10 (Block [Tac (BranchOn pv)] [])). rewrite Hbl1, decide_True by done. done. }
    destruct (gamma_outs_ok _ _ _ _ _ _ _ _ _ _ Ho Hxb2) as (ps & A1 & A2 & A3 & A4 & A5 & A5' & A6 & A7 & A8). cbn [app] in A1.
    assert (Hpred1 : forall p m, pred (bl s1) p m <-> pred (bl s) p m \/ (p = cur s /\ m = eb)).
    { intros p m. rewrite E1, pred_alter by done. unfold B3. rewrite pred_edge by (unfold B2, B1; rewrite !lookup_insert_ne by (unfold xb, eb; lia); eauto). unfold B2. rewrite pred_new by (unfold B1; by rewrite lookup_insert_ne). unfold B1. by rewrite pred_new. }
    assert (E3 : bl s3 = alter (fun b => Block (code b ++ map phi ps) (succ b)) xb (bl s2)).
    { rewrite A1. apply map_eq. intros n. destruct (decide (n = xb)) as [->|Hn]; [by rewrite lookup_insert, lookup_alter, Hxb2 | by rewrite lookup_insert_ne, lookup_alter_ne]. }
    unfold keeps. cbn [bl cur set_cur]. split.
    - intros P Q N HV.
      assert (V1 : V (bl s1) (P ∪ eb ∪ xb) Q (N ∪ xb)).
      { rewrite E1. apply V_tac; [by left; right|]. eapply V_weaken; [| | |eapply (V_goto B2 (P ∪ eb ∪ xb) Q (N ∪ eb ∪ xb) (cur s) eb c)].
        - done.
        - done.
        - cbv beta. tauto.
        - unfold B2, B1. rewrite !lookup_insert_ne by (unfold xb, eb; lia). done.
        - right. exists (Block [] []). split; [unfold B2, B1; rewrite lookup_insert_ne by (unfold xb; lia); by rewrite lookup_insert | right; apply philess_nil].
        - unfold B2, B1. rewrite !lookup_insert_ne by (unfold exit, xb, eb; lia). done.
        - eapply V_weaken; [| | |eapply V_new; [unfold B1; by rewrite lookup_insert_ne | eapply V_new; [exact Fe | exact HV]]].
          + cbv beta. tauto.
          + done.
          + done. }
      assert (V2 : V (bl s2) (P ∪ eb ∪ xb) Q (N ∪ xb)) by (apply S1; [by left; right | exact V1]).
      assert (Hnopred : forall p, ~ pred (bl s) p xb). { intros p [[_ Hx]|(b & Hbp & Hm)]; [unfold xb in *; lia|]. destruct HV as [HV _]. destruct (HV p b Hbp) as [W _ _]. destruct (W xb Hm) as [W'|[b' W']]; [unfold exit, xb in *; lia | congruence]. }
      assert (Hpx : forall p, pred (bl s2) p xb <-> p ∈ map fst rs). { intros p. rewrite S2 by lia. rewrite Hpred1. specialize (Hnopred p). assert (xb <> eb) by done. tauto. }
      assert (V2' : V (bl s2) (P ∪ xb ∪ eb) Q N).
      { eapply V_unin; [|destruct rs as [|r0 rs]; [cbn in K5; lia|]; exists r0.1; apply Hpx; by left]. eapply V_weaken; [| | |exact V2]; [cbv beta; tauto | done | done]. }
      assert (V2'' : V (bl s2) (P ∪ xb) Q N).
      { eapply V_unpend; [exact V2'|]. intros b Hbb. rewrite Heb2 in Hbb. injection Hbb as <-. cbn [succ code]. split; [destruct bs; [cbn in K9; lia | done]|]. intros _. by exists pv. }
      rewrite E3. apply V_code; [done| |exact V2'']. intros b Hbb. rewrite Hxb2 in Hbb. injection Hbb as <-. split; [left; by right|]. intros ps0 ts0 Hx. exists ps, []. cbn [code app fmap list_fmap]. rewrite app_nil_r. split; [done|]. right. right. intros q Hq. change (fst <$> q.2) with (map fst q.2). rewrite (A5' q Hq). split; [done|]. intros p. by rewrite Hpx.
    - intros m Hm p. rewrite E3, pred_alter by done. rewrite S2 by (rewrite Hnb1; unfold xb, eb in *; lia). rewrite Hpred1. assert (m <> xb /\ m <> eb) by (unfold xb, eb in *; lia). tauto.
  Qed.
  Lemma phi_holes (ps : list (nat * list (nat * nat))) xs ts : map hole xs = map phi ps ++ (Tac <$> ts) -> ts = [].
  Proof.
    revert ps. induction xs as [|x xs IH]; intros [|p ps] H; cbn in H; [by destruct ts | done | destruct ts; [done | discriminate] | injection H as _ _ H; by eapply IH].
  Qed.
  Lemma theta_keep b ins outs e s e' s' : good (Node (KTheta b) ins outs) -> region_keeps b -> convert_node opcode (Node (KTheta b) ins outs) e s = Some (e', s') -> ok s -> bounded e (nv s) -> keeps s s'.
  Proof.
    intros (Hwf & _ & Hbo) Hf H Hk Hb. change (convert_kind opcode (KTheta b) ins outs e s = Some (e', s')) in H. unfold wf_node in Hwf. cbn [nkind nins nouts] in Hwf. destruct Hwf as (Hla & Hlr & Hlo). assert (Hwb : well b) by (apply Hbo; by left).
    cbn [convert_kind] in H. set (eb := nb s) in *. set (s1 := next_block s) in *. apply bind_Some in H as (vs & Hvs & H). set (ls := zip (zip (rargs b) (tail (rres b))) vs) in *.
    destruct (theta_phis b eb ls s1) as [pres s2] eqn:Eph. apply bind_Some in H as (er & Her & H). apply bind_Some in H as ([e1 s3] & Hr & H). apply bind_Some in H as (posts & Hposts & H). apply bind_Some in H as (e2 & He2 & H). apply bind_Some in H as (q & Hq & H). apply bind_Some in H as (pv & Hpv & H). injection H as <- <-.
    pose proof (ok_cur_lt _ Hk) as Hlt. pose proof (ok_low s Hk) as Hlow. destruct (mapM_lookup _ _ _ Hvs) as [Hlv _]. destruct (mapM_lookup _ _ _ Hposts) as [Hlp _].
    assert (Hk1 : ok s1) by (by apply next_block_ok).
    assert (Heb1 : bl s1 !! eb = Some (Block [] [])) by (unfold s1; rewrite next_block_bl by done; by rewrite decide_True).
    destruct (theta_phis_ok _ _ _ _ _ _ _ _ Eph Heb1) as (n & A1 & A2 & A3 & A4 & A5 & A6). cbn [app] in A1. change (nv s1) with (nv s) in *. change (cur s1) with eb in A2. change (nb s1) with (S eb) in A3.
    assert (Hlt' : length (tail (rres b)) = length ins) by (destruct (rres b); cbn in Hlr |- *; lia).
    assert (Hlls : length ls = length ins). { unfold ls. rewrite !zip_with_length, Hla, Hlt', <-Hlv. lia. }
    destruct (A6 (cur s) (cur s3) posts ltac:(lia)) as (ps & F1 & F2 & F3 & F4).
    assert (Heb2 : bl s2 !! eb = Some (Block (map hole (seq (nv s) n)) [])) by (rewrite A1; by rewrite lookup_insert).
    assert (E2 : bl s2 = alter (fun c => Block (code c ++ map hole (seq (nv s) n)) (succ c)) eb (bl s1)).
    { rewrite A1. apply map_eq. intros m. destruct (decide (m = eb)) as [->|Hm]; [by rewrite lookup_insert, lookup_alter, Heb1 | by rewrite lookup_insert_ne, lookup_alter_ne]. }
    assert (Hk2 : ok s2).
    { split; [lia| |rewrite A2; eauto]. intros m. rewrite A3, E2, is_Some_alter. exact (ok_dom s1 Hk1 m). }
    assert (Hvb : forall v, v ∈ vs -> v < nv s). { intros v Hv. destruct (mapM_elem _ _ _ _ Hvs Hv) as (x & _ & Hx). by apply (Hb x). }
    assert (Hpb : forall v, v ∈ pres -> v < nv s2).
    { intros v Hv. apply elem_of_list_lookup in Hv as [j Hj]. assert (Hjl : j < length ls) by (rewrite <-A5; by eapply lookup_lt_Some). destruct (lookup_lt_is_Some_2 ls j Hjl) as [[[pre post] w] Hlj]. destruct (F4 j pre post w Hlj) as (pj & w' & C1 & C2 & C3). rewrite Hj in C1. injection C1 as <-. rewrite A4. destruct (requires_phi b pre post).
      - destruct C3 as [k Hk']. assert (Hx : map fst ps !! k = Some v) by (change (map fst ps) with (fst <$> ps); by rewrite list_lookup_fmap, Hk'). rewrite F2 in Hx. apply lookup_seq in Hx as [-> Hx]. lia.
      - subst v. unfold ls in Hlj. apply lookup_zip_with_Some in Hlj as (? & w1 & [= _ <-] & _ & Hw). assert (w < nv s) by (apply Hvb; by eapply elem_of_list_lookup_2). lia. }
    assert (Hber : bounded er (nv s2)). { intros x v Hx. apply (insert_vars_cases _ _ _ _ _ _ Her) in Hx as [Hx|(j & _ & Hj)]; [by rewrite lookup_empty in Hx|]. apply Hpb. by eapply elem_of_list_lookup_2. }
    destruct (Hf _ _ _ _ Hr Hk2 Hber) as [KV KP]. destruct (region_blocks b _ _ _ _ Hwb Hr Hk2 Hber) as (R1 & R2 & R3 & R4 & R5 & R6 & R7 & R8). rewrite A2 in R7, R8. rewrite A3 in R3, R7, R8, KP.
    set (lb := cur s3) in *. set (xb := nb s3) in *.
    assert (Heb3 : bl s3 !! eb = Some (Block (map hole (seq (nv s) n)) [S eb])) by (by apply R8).
    assert (Hne : eb <> lb /\ eb <> xb /\ lb <> xb) by lia. destruct Hne as (Hne1 & Hne2 & Hne3).
    set (B4 := alter (fun c => Block (fill_phis b (cur s) lb ls posts (code c)) (succ c)) eb (bl s3)). set (B5 := alter (fun c => Block (code c ++ [Tac (BranchOn pv)]) (succ c)) lb B4). set (B6 := <[xb := Block [] []]> B5). set (B7 := alter (fun c => Block (code c) (succ c ++ [xb])) lb B6). set (B8 := alter (fun c => Block (code c) (succ c ++ [eb])) lb B7).
    unfold keeps. change (bl (set_cur _ _)) with B8. change (cur (set_cur _ _)) with xb.
    assert (L5 : B5 !! lb = Some (Block [Tac (BranchOn pv)] [])) by (unfold B5, B4; rewrite lookup_alter, lookup_alter_ne, R6 by done; done).
    assert (L5x : B5 !! xb = None) by (unfold B5, B4; rewrite !lookup_alter_ne by done; by apply ok_fresh).
    assert (L6 : B6 !! lb = Some (Block [Tac (BranchOn pv)] [])) by (unfold B6; by rewrite lookup_insert_ne).
    assert (L7 : B7 !! lb = Some (Block [Tac (BranchOn pv)] [xb])) by (unfold B7; by rewrite lookup_alter, L6).
    assert (L8 : B8 !! lb = Some (Block [Tac (BranchOn pv)] [xb; eb])) by (unfold B8; by rewrite lookup_alter, L7).
    assert (L8e : B8 !! eb = Some (Block (map phi ps) [S eb])). { unfold B8, B7, B6, B5, B4. rewrite !lookup_alter_ne, lookup_insert_ne, lookup_alter_ne, lookup_alter, Heb3 by done. cbn. by rewrite F1. }
    assert (X5 : B5 !! exit = None). { unfold B5, B4. assert (lb <> exit /\ eb <> exit) by (pose proof (ok_cur_lt _ R1); unfold exit; lia). rewrite !lookup_alter_ne by tauto. by apply ok_exit. }
    assert (X6 : B6 !! exit = None) by (unfold B6; rewrite lookup_insert_ne by (unfold exit; lia); done).
    assert (X7 : B7 !! exit = None) by (unfold B7; rewrite lookup_alter_ne by (pose proof (ok_cur_lt _ R1); unfold exit; lia); done).
    assert (Hpred8 : forall p m, pred B8 p m <-> pred (bl s3) p m \/ (p = lb /\ (m = xb \/ m = eb))).
    { intros p m. unfold B8. rewrite pred_edge by eauto. unfold B7. rewrite pred_edge by eauto. unfold B6. rewrite pred_new by done. unfold B5. rewrite (pred_alter B4) by done. unfold B4. rewrite (pred_alter (bl s3)) by done. tauto. }
    assert (Hpred3 : forall p m, m < S eb -> pred (bl s3) p m <-> pred (bl s) p m \/ (p = cur s /\ m = eb)).
    { intros p m Hm. rewrite KP by done. rewrite E2, pred_alter by done. unfold s1. by apply next_block_pred. }
    split.
    - intros P Q N HV.
      assert (V1 : V (bl s1) (P ∪ eb) Q N) by (by apply next_block_V).
      assert (V2 : V (bl s2) (P ∪ cur s2) (Q ∪ eb) N).
      { rewrite A2, E2. apply V_code; [done| |eapply V_weaken; [| | |exact V1]; [done | cbv beta; tauto | done]]. intros c Hc. rewrite Heb1 in Hc. injection Hc as <-. split; [left; by right|]. intros ps0 ts0 _. exists (map (fun x => (x, [])) (seq (nv s) n)), []. cbn [code app fmap list_fmap]. rewrite app_nil_r, map_map. split; [done|]. left. by right. }
      apply KV in V2. fold lb in V2.
      assert (V4 : V B4 (P ∪ lb) (Q ∪ eb) N).
      { unfold B4. apply V_code; [done| |exact V2]. intros c Hc. rewrite Heb3 in Hc. injection Hc as <-. cbn [code]. rewrite F1. split.
        - right. intros p Hp. exfalso. apply last_Some in Hp as [l Hl]. assert (Hx : Tac (BranchOn p) ∈ map hole (seq (nv s) n)) by (rewrite Hl, elem_of_app; right; by left). change (map hole (seq (nv s) n)) with (hole <$> seq (nv s) n) in Hx. apply elem_of_list_fmap in Hx as (y & Hy & _). discriminate.
        - intros ps0 ts0 _. exists ps, []. cbn [fmap list_fmap]. rewrite app_nil_r. split; [done|]. left. by right. }
      assert (V5 : V B5 (P ∪ lb) (Q ∪ eb) N) by (apply V_tac; [by right | exact V4]).
      assert (V7 : V B7 (P ∪ lb ∪ xb) (Q ∪ eb) N).
      { unfold B7. eapply V_weaken; [| | |eapply (V_edge B6 (P ∪ lb ∪ xb) (Q ∪ eb) (N ∪ xb) lb xb)].
        - done.
        - done.
        - cbv beta. tauto.
        - eauto.
        - left. by right.
        - right. exists (Block [] []). split; [unfold B6; by rewrite lookup_insert | right; apply philess_nil].
        - done.
        - unfold B6. by apply V_new. }
      assert (V8 : V B8 (P ∪ lb ∪ xb) (Q ∪ eb) N).
      { unfold B8. eapply V_weaken; [| | |eapply (V_edge B7 (P ∪ lb ∪ xb) (Q ∪ eb) N lb eb)].
        - done.
        - done.
        - cbv beta. tauto.
        - eauto.
        - left. by right.
        - right. exists (Block (map phi ps) [S eb]). split; [|left; by right]. unfold B8 in L8e. by rewrite lookup_alter_ne in L8e by done.
        - done.
        - done. }
      apply (V_unhole _ _ _ _ eb).
      + apply (V_unpend _ _ _ _ lb); [eapply V_weaken; [| | |exact V8]; [cbv beta; tauto | done | done]|]. intros c Hc. rewrite L8 in Hc. injection Hc as <-. split; [done|]. intros _. by exists pv.
      + intros c Hc. rewrite L8e in Hc. injection Hc as <-. cbn [code]. exists ps, []. cbn [fmap list_fmap]. rewrite app_nil_r. split; [done|]. intros q0 Hq0. destruct (F3 q0 Hq0) as (v & w & ->). cbn [fmap list_fmap fst].
        assert (Hcl : cur s <> lb) by lia. split; [apply NoDup_cons; split; [by rewrite elem_of_list_singleton | apply NoDup_singleton]|]. intros p. rewrite Hpred8, Hpred3 by lia. rewrite !elem_of_cons, elem_of_nil.
        assert (Hno : ~ pred (bl s) p eb). { intros [[_ Hx]|(c & Hc & Hm)]; [lia|]. destruct HV as [HV _]. destruct (HV p c Hc) as [W _ _]. destruct (W eb Hm) as [W'|W']; [unfold exit in *; lia|]. apply (ok_dom s Hk) in W'. lia. }
        tauto.
    - intros m Hm p. rewrite Hpred8, Hpred3 by lia. assert (m <> eb /\ m <> xb) by lia. tauto.
  Qed.
  Lemma convert_region_keeps r : well r -> region_keeps r.
  Proof.
    set (P := fun n => good n -> forall e s e' s', convert_node opcode n e s = Some (e', s') -> ok s -> bounded e (nv s) -> keeps s s').
    revert r. apply (all_region P (fun r => well r -> region_keeps r)).
    - intros o ins outs _ e s e' s' H _ _. by eapply simple_keep.
    - intros subs ins outs HF Hg e s e' s' H Hk Hb. eapply gamma_keep; [exact Hg| |exact H | done | done]. intros r Hr. rewrite Forall_forall in HF. apply HF; [done|]. destruct Hg as (_ & _ & Hg). by apply Hg.
    - intros b ins outs HF Hg e s e' s' H Hk Hb. eapply theta_keep; [exact Hg| |exact H | done | done]. apply HF. destruct Hg as (_ & _ & Hg). apply Hg. by left.
    - intros args ns res HF Hw e s e' s' H Hk Hb. cbn [convert_region] in H. fold (convert_node opcode) in H. apply bind_Some in H as ([e1 t] & H & [= <- <-]). rewrite Forall_forall in HF. destruct (well_inv _ Hw) as (_ & W1 & W2). cbn [rnodes] in W1, W2.
      assert (Hg : forall n, n ∈ ns -> good n). { intros n Hn. destruct (W1 n Hn) as [X1 X2]. split; [done|]. split; [done|]. intros b Hb'. by eapply W2. }
      assert (Hk0 : ok (next_block s)) by (by apply next_block_ok).
      assert (Ht : ok t /\ nb (next_block s) <= nb t).
      { assert (HA : exists H', correct (fun _ _ => None) (fun _ : val => true) False e (next_block s) e1 t (all_outs ns) H').
        { eexists. eapply (convert_nodes_correct (fun _ _ => None) id); [|exact H | exact Hk0 | exact Hb]. intros n e2 s2 e3 s3 Hn Hc Hk2 Hb2. destruct (node_rel _ _ _ _ _ (Hg n Hn) Hc Hk2 Hb2) as [Hx A]. destruct A as [A1 A2 A3 A4 A5 A6 A7]. split; [done | done | done | done | done | intros [] | intros []]. }
        destruct HA as [H' [A1 A2 A3 A4 A5 A6 A7]]. split; [done|]. exact (g_nb _ _ A1). }
      destruct Ht as [Hkt Hnt]. change (nb (next_block s)) with (S (nb s)) in Hnt. eapply keeps_trans; [| apply keeps_next, Hk |]; [cbn; lia|]. eapply keeps_trans; [| |apply keeps_next, Hkt]; [cbn; lia|].
      eapply nodes_keep; [exact Hg| |exact H | exact Hk0 | exact Hb]. intros n e2 s2 e3 s3 Hn. by apply HF, Hg.
  Qed.
End Convert.
