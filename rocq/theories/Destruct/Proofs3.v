(** Gamma nodes. *)
From stdpp Require Import base list gmap.
From Coq Require Import Lia.
From Verif.Construct Require Import Model Spec.
From Verif.Cfg Require Import Model Spec ProofsBase.
From Verif.LocalRegion Require Import Model Spec Facts.
From Verif.Destruct Require Import Model Spec Proofs1 Proofs2.

Section Sem.
  Context (opcode : op -> nat) (other : nat -> list val -> option (list val)) (content : val -> val) (sem : nat -> list val -> option (list val)) (truth : val -> bool) (K : Prop).
  Notation exec_block := (exec_block sem truth).
  Notation goes := (goes as_ctl).
  Notation runsN := (runsN sem truth).
  Notation from := (from sem truth).
  Notation correct := (correct sem truth K).
  Notation hold := (hold other content).
  Lemma fits_here G s s' : ok s -> ok s' -> grow s s' -> fits G s s' -> exists c ts ss, bl s !! cur s = Some (Block c []) /\ G !! cur s = Some (Block (c ++ (Tac <$> ts)) ss).
  Proof. intros H1 H2 H3 H4. destruct (fits_split G s s s' H1 H1 (grow_refl s) H3 H4) as [[_ H] _]. exact H. Qed.
  Lemma gamma_correct subs p es outs e s e' s' :
    (forall r, r ∈ subs -> region_correct other content sem truth K (convert_region opcode) r) -> 1 < length subs ->
    (forall r, r ∈ subs -> NoDup (names r) /\ length (rargs r) = S (length es) /\ length (rres r) = length outs) ->
    convert_kind opcode (KGamma subs) (p :: es) outs e s = Some (e', s') -> ok s -> bounded e (nv s) ->
    correct e s e' s' outs (fun rho => holds other content rho (Node (KGamma subs) (p :: es) outs)).
  Proof.
    intros Hf Hlen Hshape H Hk Hb. cbn [convert_kind] in H. set (eb := nb s) in *. set (xb := S eb) in *.
    apply bind_Some in H as (pv & Hpv & H). set (s1 := append eb (Tac (BranchOn pv)) 0 _) in H. apply bind_Some in H as (vs & Hvs & H). apply bind_Some in H as ([rs s2] & Hs & H). apply bind_Some in H as ([e1 s3] & Ho & [= <- <-]). set (s' := set_cur xb s3).
    destruct (ok_cur s Hk) as [c Hc]. pose proof (ok_cur_lt _ Hk) as Hlt. pose proof (ok_low s Hk) as Hlow.
    assert (Hbl1 : forall n, bl s1 !! n = if decide (n = eb) then Some (Block [Tac (BranchOn pv)] []) else if decide (n = xb) then Some (Block [] []) else if decide (n = cur s) then Some (Block c [eb]) else bl s !! n).
    { intros n. unfold s1, append, add_edge, create_block. cbn [bl nb cur]. fold eb. fold xb. case_decide as E1; [subst n; rewrite lookup_alter, lookup_alter_ne, lookup_insert_ne, lookup_insert by (unfold xb, eb; lia); done|]. rewrite lookup_alter_ne by done.
      case_decide as E2; [subst n; rewrite lookup_alter_ne, lookup_insert by (unfold xb, eb; lia); done|]. case_decide as E3; [subst n; rewrite lookup_alter, !lookup_insert_ne by done; by rewrite Hc|]. rewrite lookup_alter_ne, !lookup_insert_ne by done. done. }
    assert (Hnb1 : nb s1 = S xb) by done. assert (Hnv1 : nv s1 = nv s) by done.
    assert (Hd1 : dom_ok s1). { split; [lia|]. intros n. rewrite Hbl1, Hnb1. pose proof (ok_dom s Hk n) as Hd. fold eb in Hd. case_decide as E1; [subst n; split; [unfold xb; lia | eauto]|]. case_decide as E2; [subst n; split; [unfold xb; lia | eauto]|]. case_decide as E3; [subst n; split; [unfold xb; lia | eauto]|]. rewrite Hd. unfold xb in *. lia. }
    assert (Hvb : forall v, v ∈ vs -> v < nv s). { intros v Hv. destruct (mapM_elem _ _ _ _ Hvs Hv) as (x & _ & Hx). by apply (Hb x). }
    destruct (convert_subs_ok other content sem truth K _ _ _ _ _ Hf _ _ _ Hs Hd1) as (K1 & K2 & K3 & K4 & K5 & K6 & K7 & K8 & bs & K9 & K10 & K11); [unfold xb in *; lia | unfold xb in *; lia | done|].
    assert (Hxb2 : bl s2 !! xb = Some (Block [] [])). { rewrite K4 by (unfold xb in *; lia). rewrite Hbl1, decide_False, decide_True by (unfold xb; lia). done. }
    assert (Heb2 : bl s2 !! eb = Some (Block [Tac (BranchOn pv)] bs)). { apply (K10 (Block [Tac (BranchOn pv)] [])). rewrite Hbl1, decide_True by done. done. }
    assert (Hcur2 : bl s2 !! cur s = Some (Block c [eb])). { rewrite K4 by (unfold xb, eb in *; lia). rewrite Hbl1, decide_False, decide_False, decide_True by (unfold xb, eb; lia). done. }
    destruct (gamma_outs_ok _ _ _ _ _ _ _ _ _ _ Ho Hxb2) as (ps & A1 & A2 & A3 & A4 & A5 & A5' & A6 & A7 & A8). cbn [app] in A1.
    assert (Hbl' : forall n, n <> xb -> bl s' !! n = bl s2 !! n) by (intros n Hn; cbn; rewrite A1; by rewrite lookup_insert_ne).
    assert (Hxb' : bl s' !! xb = Some (Block (map phi ps) [])) by (cbn; rewrite A1; by rewrite lookup_insert).
    assert (Hnb' : nb s' = nb s2) by done. assert (Hnv' : nv s' = nv s3) by done.
    assert (Hk' : ok s').
    { destruct K3 as [K31 K32]. split; [cbn; lia| |by exists (map phi ps)]. intros n. destruct (decide (n = xb)) as [->|Hn]; [rewrite Hxb'; split; [rewrite Hnb'; unfold xb in *; lia | eauto]|]. rewrite Hbl' by done. rewrite Hnb'. apply K32. }
    assert (Hrsb : forall r, r ∈ rs -> forall v, v ∈ r.2 -> v < nv s2) by done.
    (* a subregion's output variables *)
    assert (Hsub : forall i r, subs !! i = Some r -> exists b lb res, bs !! i = Some b /\ rs !! i = Some (lb, res) /\ sub_ok other content sem truth K xb vs s1 s2 r b lb res).
    { intros i r Hi. destruct (lookup_lt_is_Some_2 bs i) as [b Hbi]; [rewrite K9; by eapply lookup_lt_Some|]. destruct (lookup_lt_is_Some_2 rs i) as [[lb res] Hri]; [rewrite K5; by eapply lookup_lt_Some|]. exists b, lb, res. eauto. }
    assert (Hb' : bounded e1 (nv s')).
    { intros x v Hx. destruct (A7 x v Hx) as [Hx'|Hx']; [specialize (Hb x v Hx'); lia|]. apply elem_of_list_lookup in Hx' as [j Hj]. destruct (lookup_lt_is_Some_2 rs 0) as [[lb res] H0]; [lia|]. destruct (A8 0 lb res K6 H0) as (us & _ & _ & _ & B3). destruct (B3 (nv s2) ltac:(lia) Hrsb (fun _ => VCtl 0) j x Hj) as (w & u & C1 & C2 & _). rewrite Hx in C1. injection C1 as ->. done. }
    (* the way through the graph *)
    assert (Hgraph : forall G, fits G s s' -> forall i r b lb res, subs !! i = Some r -> bs !! i = Some b -> rs !! i = Some (lb, res) -> exists er a e2 t, insert_vars (tail (rargs r)) vs ∅ = Some er /\ nv s <= nv a /\ nv t <= nv s2 /\
      correct er a e2 t (all_outs (rnodes r)) (fun rho => hold rho (rnodes r)) /\ mapM (fun x => e2 !! x) (rres r) = Some res /\ fits G a t /\
      (forall σ k σf, runsN G k eb b σ σf <-> exists k', k = S (S k') /\ from G a k' σ σf) /\
      (forall σ k σf, from G t k σ σf <-> exists k' us, k = S (S k') /\ mapM (fun q => operand lb q.2) ps = Some us /\ from G s' k' (upd_all (fst <$> ps) (map σ us) σ) σf)).
    { intros G HG i r b lb res Hi Hbi Hri. destruct (K11 _ _ _ _ _ Hi Hbi Hri) as (er & a & e2 & t & L1 & L2 & L3 & L4 & L5 & L6 & L7 & L8 & L9 & L10 & L11 & L12 & L13 & L14 & (ct & L15 & L16) & L17).
      exists er, a, e2, t. split; [done|]. split; [lia|]. split; [done|]. split; [exact L3|]. split; [done|]. pose proof (c_ok _ _ _ _ _ _ _ _ _ L3) as Hkt. pose proof (c_grow _ _ _ _ _ _ _ _ _ L3) as Hgt. pose proof (ok_cur_lt _ Hkt). pose proof (g_nb _ _ Hgt). pose proof (g_cur _ _ Hgt).
      assert (EG : forall n, nb s <= n < nb s' -> n <> xb -> G !! n = bl s2 !! n). { intros n Hn Hne. rewrite (f_blocks _ _ _ HG) by (try left; done). by apply Hbl'. }
      assert (Hfit : fits G a t). { split.
        - intros n Hn Hne. rewrite EG by (unfold xb, eb in *; lia). apply L14; [lia | done].
        - exists ct, [], [lb]. cbn [fmap list_fmap]. rewrite app_nil_r. split; [done|]. rewrite EG by (unfold xb, eb in *; lia). done. }
      split; [done|]. split.
      - intros σ k σf. destruct (fits_here G a t L2 Hkt Hgt Hfit) as (c1 & ts & ss & F1 & F2). rewrite L12 in F1. injection F1 as <-. cbn [app] in F2.
        pose proof (enter_goto sem truth G b [] (cur a) eb k σ σf ltac:(unfold exit; lia) ltac:(rewrite EG by (unfold xb, eb in *; lia); done)) as E1. rewrite E1. cbn [mapM fmap list_fmap map]. split.
        + intros (k' & us & -> & [= <-] & Hr). apply (enter_from sem truth G a [] ts ss b k' σ σf ltac:(unfold exit; lia) L12 F2) in Hr as (k2 & us & -> & [= <-] & Hr). by exists k2.
        + intros (k' & -> & Hr). exists (S k'), []. split; [done|]. split; [done|]. apply (enter_from sem truth G a [] ts ss b _ σ σf ltac:(unfold exit; lia) L12 F2). exists k', []. done.
      - intros σ k σf. assert (EGt : G !! cur t = Some (Block ct [lb])) by (rewrite EG by (unfold xb, eb in *; lia); done). rewrite (from_goto sem truth G t ct lb k σ σf L15 EGt).
        assert (EGl : G !! lb = Some (Block [] [xb])) by (rewrite EG by (unfold xb, eb in *; lia); done). rewrite (enter_goto sem truth G lb [] xb (cur t) k σ σf ltac:(unfold exit; lia) EGl). cbn [mapM fmap list_fmap map].
        destruct (f_cur _ _ _ HG) as (c1 & ts & ss & F1 & F2). change (cur s') with xb in F1, F2. rewrite Hxb' in F1. injection F1 as <-.
        split.
        + intros (k' & us & -> & [= <-] & Hr). apply (enter_from sem truth G s' ps ts ss lb k' σ σf ltac:(cbn; unfold exit, xb; lia) Hxb' F2) in Hr as (k2 & us & -> & Hus & Hr). by exists k2, us.
        + intros (k' & us & -> & Hus & Hr). exists (S k'), []. split; [done|]. split; [done|]. apply (enter_from sem truth G s' ps ts ss lb _ σ σf ltac:(cbn; unfold exit, xb; lia) Hxb' F2). by exists k', us. }
    assert (Hentry : forall G, fits G s s' -> forall σ k σf, from G s k σ σf <-> exists k' i b, k = S k' /\ σ pv = VCtl i /\ bs !! i = Some b /\ runsN G k' eb b σ σf).
    { intros G HG σ k σf. assert (EGc : G !! cur s = Some (Block c [eb])). { rewrite (f_blocks _ _ _ HG) by (cbn; unfold xb, eb in *; lia || by right). rewrite Hbl' by (unfold xb, eb in *; lia). done. }
      assert (EGe : G !! eb = Some (Block [Tac (BranchOn pv)] bs)). { rewrite (f_blocks _ _ _ HG); [|left; rewrite Hnb'; unfold xb, eb in *; lia | cbn; unfold xb; lia]. rewrite Hbl' by (unfold xb, eb in *; lia). done. }
      rewrite (from_goto sem truth G s c eb k σ σf Hc EGc). rewrite (enter sem truth G eb [] [BranchOn pv] bs (cur s) k σ σf) by (done || (unfold exit; lia)). cbn [mapM fmap list_fmap map app]. split.
      - intros (k' & us & σ1 & m & -> & [= <-] & (σ2 & H2 & H3) & Hg & Hr). cbn in H2, H3. subst σ2 σ1. unfold Cfg.Spec.goes in Hg. cbn [succ code] in Hg. destruct bs as [|b1 [|b2 bs]]; [cbn in K9; lia | cbn in K9; lia|]. destruct Hg as (q & i & Hq & Hi & Hm). cbn in Hq. injection Hq as <-.
        unfold upd_all in Hi, Hr. cbn in Hi, Hr. destruct (σ pv) as [z|w z|z] eqn:Ez; try done. cbn in Hi. injection Hi as ->. exists k', i, m. done.
      - intros (k' & i & b & -> & Hi & Hbi & Hr). exists k', [], σ, b. split; [done|]. split; [done|]. split; [by exists σ|]. split; [|done]. unfold Cfg.Spec.goes. cbn [succ code]. destruct bs as [|b1 [|b2 bs]]; [cbn in K9; lia | cbn in K9; lia|]. exists pv, i. rewrite Hi. done. }
    split.
    - split; [rewrite Hnb'; unfold xb in *; lia | lia | | right; cbn; unfold xb, eb; lia |].
      + intros n Hn Hne. rewrite Hbl' by (unfold xb, eb in *; lia). rewrite K4 by (unfold xb, eb in *; lia). rewrite Hbl1, decide_False, decide_False, decide_False by (unfold xb, eb in *; lia). done.
      + intros c' Hc'. rewrite Hc in Hc'. injection Hc' as <-. exists [], [eb]. cbn [fmap list_fmap]. rewrite app_nil_r. rewrite Hbl' by (unfold xb, eb in *; lia). done.
    - done.
    - done.
    - exact A6.
    - exact A7.
    - intros HK G HG rho σ Hh Ha. unfold holds in Hh. cbn [nkind nins nouts map] in Hh. inversion Hh as [|subs0 i r vs0 ws0 Hi Hr Ep|]; subst. destruct (Hsub i r Hi) as (b & lb & res & Hbi & Hri & _). destruct (Hgraph G HG i r b lb res Hi Hbi Hri) as (er & a & e2 & t & L1 & L2 & L3 & L4 & L5 & L6 & L7 & L8).
      apply runs_iff in Hr as (rr & R1 & R2 & R3). destruct (rargs r) as [|ca args] eqn:Er; [done|]. cbn [map] in R1. injection R1 as _ R1. cbn [tail] in L1.
      assert (Hae : agree er σ rr).
      { intros x v Hx. apply (insert_vars_cases _ _ _ _ _ _ L1) in Hx as [Hx|(j & Hj & Hv)]; [by rewrite lookup_empty in Hx|]. assert (Em : map σ vs = map rr args) by (rewrite R1; by apply (map_agree e)).
        apply (f_equal (fun l => l !! j)) in Em. change (map σ vs) with (σ <$> vs) in Em. change (map rr args) with (rr <$> args) in Em. rewrite !list_lookup_fmap, Hj, Hv in Em. by injection Em. }
      destruct (c_fwd _ _ _ _ _ _ _ _ _ L4 HK G L6 rr σ R2 Hae) as (σ1 & M1 & M2 & M3). destruct (A8 i lb res K6 Hri) as (us & B1 & B2 & B2' & B3). exists (upd_all (fst <$> ps) (map σ1 us) σ1).
      assert (Hfr : frame (nv s) σ (upd_all (fst <$> ps) (map σ1 us) σ1)). { intros v Hv. change (fst <$> ps) with (map fst ps). rewrite A5, upd_all_seq_old by lia. apply M1. lia. }
      split; [done|]. split.
      + intros x v Hx. destruct (A7 x v Hx) as [Hx'|Hx']; [rewrite Hfr by (by apply (Hb x)); by apply Ha|]. apply elem_of_list_lookup in Hx' as [j Hj]. destruct (B3 (nv s2) ltac:(lia) Hrsb σ1 j x Hj) as (w & u & C1 & C2 & C3 & C4). rewrite Hx in C1. injection C1 as <-. rewrite C4. cbn in C3.
        pose proof (map_agree _ _ _ _ _ M2 L5) as Em. change (map rr (rres r) = map rho outs) in R3. rewrite R3 in Em. apply (f_equal (fun l => l !! j)) in Em. change (map σ1 res) with (σ1 <$> res) in Em. change (map rho outs) with (rho <$> outs) in Em. rewrite !list_lookup_fmap, Hj, C3 in Em. by injection Em.
      + intros k σf Hfin. destruct (M3 (S (S k)) σf) as (k' & Hk2); [apply L8; exists k, us; done|]. exists (S (S (S k'))). apply (Hentry G HG). exists (S (S k')), i, b. split; [done|]. split; [rewrite (Ha _ _ Hpv); done|]. split; [done|]. apply L7. by exists k'.
    - intros HK G HG σ k σf Hfr. apply (Hentry G HG) in Hfr as (k1 & i & b & -> & Hi & Hbi & Hr). destruct (lookup_lt_is_Some_2 subs i) as [r Hsi]; [rewrite <-K9; by eapply lookup_lt_Some|]. destruct (Hsub i r Hsi) as (b0 & lb & res & Hbi0 & Hri & _). rewrite Hbi in Hbi0. injection Hbi0 as <-.
      destruct (Hgraph G HG i r b lb res Hsi Hbi Hri) as (er & a & e2 & t & L1 & L2 & L3 & L4 & L5 & L6 & L7 & L8). apply L7 in Hr as (k2 & -> & Hr). destruct (c_bwd _ _ _ _ _ _ _ _ _ L4 HK G L6 _ _ _ Hr) as (σ1 & k3 & M0 & M1 & M2 & M3). apply L8 in M2 as (k4 & us & -> & Hus & Hfin).
      destruct (A8 i lb res K6 Hri) as (us' & B1 & B2 & B2' & B3). rewrite Hus in B1. injection B1 as <-. exists (upd_all (fst <$> ps) (map σ1 us) σ1), k4. split; [lia|].
      assert (Hf' : frame (nv s) σ (upd_all (fst <$> ps) (map σ1 us) σ1)). { intros v Hv. change (fst <$> ps) with (map fst ps). rewrite A5, upd_all_seq_old by lia. apply M1. lia. }
      split; [done|]. split; [done|]. intros rho Ha. assert (Ha0 : agree e σ rho). { eapply agree_frame; [exact Hb | exact Hf'|]. intros y v Hv. apply Ha. by apply A6. }
      unfold holds. cbn [nkind nins nouts map]. assert (Ep : rho p = VCtl i) by (rewrite <-(Ha0 _ _ Hpv); done). rewrite Ep. apply (e_gamma _ _ _ _ r); [done|].
      destruct (Hshape r ltac:(by eapply elem_of_list_lookup_2)) as (N1 & N2 & N3). apply runs_iff. destruct (rargs r) as [|ca args] eqn:Er; [done|]. unfold names in N1. rewrite Er in N1. cbn [app] in N1. apply NoDup_cons in N1 as [N1 N1']. rewrite elem_of_app in N1. cbn [tail] in L1.
      set (rr := fun x => if decide (x = ca) then content (VCtl i) else match e2 !! x with Some v => σ1 v | None => VAny 0 end).
      assert (Hca : e2 !! ca = None). { destruct (e2 !! ca) as [v|] eqn:E; [|done]. exfalso. destruct (c_dom _ _ _ _ _ _ _ _ _ L4 ca v E) as [E'|E']; [|tauto]. apply (insert_vars_cases _ _ _ _ _ _ L1) in E' as [E'|(j & Hj & _)]; [by rewrite lookup_empty in E'|]. apply N1. left. by eapply elem_of_list_lookup_2. }
      assert (Hrr : agree e2 σ1 rr). { intros x v Hx. unfold rr. rewrite decide_False by (intros ->; by rewrite Hca in Hx). by rewrite Hx. }
      destruct (insert_vars_inv _ _ _ _ L1) as (Hla & _ & _ & _ & Hia).
      exists rr. split; [|split].
      + cbn [map]. f_equal; [unfold rr; by rewrite decide_True|]. rewrite <-(map_agree _ _ _ _ _ Ha0 Hvs). apply map_eq_lookup; [by rewrite map_length|]. intros j x Hj. destruct (lookup_lt_is_Some_2 vs j) as [v Hv]; [rewrite <-Hla; by eapply lookup_lt_Some|]. change (map σ vs) with (σ <$> vs). rewrite list_lookup_fmap, Hv. cbn. f_equal.
        specialize (Hia j x Hj). rewrite Hv in Hia. rewrite <-(Hrr x v) by (by apply (c_sub _ _ _ _ _ _ _ _ _ L4)). symmetry. apply M1. assert (v < nv s) by (apply Hvb; by eapply elem_of_list_lookup_2). lia.
      + by apply M3.
      + rewrite <-(map_agree _ _ _ _ _ Hrr L5). apply map_eq_lookup; [destruct (mapM_lookup _ _ _ L5); rewrite map_length; lia|]. intros j u Hj.
        assert (Hjo : j < length outs). { rewrite <-N3. destruct (mapM_lookup _ _ _ L5) as [-> _]. by eapply lookup_lt_Some. }
        destruct (lookup_lt_is_Some_2 outs j Hjo) as [x Hx]. change (map rho outs) with (rho <$> outs). rewrite list_lookup_fmap, Hx. cbn. f_equal. destruct (B3 (nv s2) ltac:(lia) Hrsb σ1 j x Hx) as (w & u' & C1 & C2 & C3 & C4). cbn in C3. rewrite Hj in C3. injection C3 as <-. rewrite <-C4. symmetry. by apply Ha.
  Qed.
End Sem.
