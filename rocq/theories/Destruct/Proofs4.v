(** Theta nodes. *)
From stdpp Require Import base list gmap.
From Coq Require Import Lia.
From Verif.Construct Require Import Model Spec.
From Verif.Cfg Require Import Model Spec ProofsBase.
From Verif.LocalRegion Require Import Model Spec Facts.
From Verif.Destruct Require Import Model Spec Proofs1 Proofs2 Proofs3.

Definition hole (x : nat) : instr := Phi x [].
Lemma theta_phis_ok b eb ls : forall s pres s' c ss, theta_phis b eb ls s = (pres, s') -> bl s !! eb = Some (Block c ss) ->
  exists n, bl s' = <[eb := Block (c ++ map hole (seq (nv s) n)) ss]> (bl s) /\ cur s' = cur s /\ nb s' = nb s /\ nv s' = nv s + n /\ length pres = length ls /\
    forall pb lb posts, length posts = length ls -> exists ps, fill_phis b pb lb ls posts (map hole (seq (nv s) n)) = map phi ps /\ map fst ps = seq (nv s) n /\ (forall q, q ∈ ps -> exists v w, q.2 = [(pb, v); (lb, w)]) /\
      forall j pre post v, ls !! j = Some (pre, post, v) -> exists pj w, pres !! j = Some pj /\ posts !! j = Some w /\ if requires_phi b pre post then exists k, ps !! k = Some (pj, [(pb, v); (lb, w)]) else pj = v.
Proof.
  induction ls as [|[[pre post] v] ls IH]; intros s pres s' c ss H He; cbn [theta_phis] in H.
  - injection H as <- <-. exists 0. cbn [map seq]. rewrite app_nil_r, insert_id by done. split; [done|]. split; [done|]. split; [done|]. split; [lia|]. split; [done|]. intros pb lb [|]; [|done]. intros _. exists []. split; [done|]. split; [done|]. split; [by intros q ?%elem_of_nil|]. done.
  - destruct (requires_phi b pre post) eqn:E.
    + destruct (theta_phis b eb ls _) as [vs s0] eqn:Et. injection H as <- <-. destruct (IH _ _ _ (c ++ [hole (nv s)]) ss Et) as (n & A1 & A2 & A3 & A4 & A5 & A6); [cbn; by rewrite lookup_alter, He|]. cbn [bl cur nb nv append] in *. change (1 + nv s) with (S (nv s)) in *. exists (S n).
      split; [|split; [exact A2|split; [exact A3|split; [lia|split; [cbn; lia|]]]]].
      * rewrite A1, <-(assoc_L (++)). cbn [map app seq]. apply map_eq. intros m. destruct (decide (m = eb)) as [->|Hm]; [by rewrite !lookup_insert|]. rewrite !lookup_insert_ne by done. by rewrite lookup_alter_ne.
      * intros pb lb [|w posts] Hl; [done|]. destruct (A6 pb lb posts ltac:(by injection Hl)) as (ps & B1 & B2 & B3 & B4). exists ((nv s, [(pb, v); (lb, w)]) :: ps). cbn [fill_phis seq map]. rewrite E. cbn [hole]. rewrite B1. split; [done|]. split; [cbn; by rewrite B2|]. split.
        -- intros q [->|Hq]%elem_of_cons; [by exists v, w | by apply B3].
        -- intros [|j] pre' post' v' Hj; cbn in Hj.
           ++ injection Hj as <- <- <-. exists (nv s), w. split; [done|]. split; [done|]. rewrite E. by exists 0.
           ++ destruct (B4 j _ _ _ Hj) as (pj & w' & C1 & C2 & C3). exists pj, w'. split; [done|]. split; [done|]. destruct (requires_phi b pre' post'); [|done]. destruct C3 as [k Hk]. by exists (S k).
    + destruct (theta_phis b eb ls s) as [vs s0] eqn:Et. injection H as <- <-. destruct (IH _ _ _ c ss Et He) as (n & A1 & A2 & A3 & A4 & A5 & A6). exists n. split; [done|]. split; [done|]. split; [done|]. split; [done|]. split; [cbn; lia|].
      intros pb lb [|w posts] Hl; [done|]. destruct (A6 pb lb posts ltac:(by injection Hl)) as (ps & B1 & B2 & B3 & B4). exists ps. cbn [fill_phis]. rewrite E. split; [done|]. split; [done|]. split; [done|]. intros [|j] pre' post' v' Hj; cbn in Hj.
      * injection Hj as <- <- <-. exists v, w. split; [done|]. split; [done|]. by rewrite E.
      * destruct (B4 j _ _ _ Hj) as (pj & w' & C1 & C2 & C3). by exists pj, w'.
Qed.
Lemma operand_here p v l : operand p ((p, v) :: l) = Some v.
Proof. unfold operand. by rewrite filter_cons_True. Qed.
Lemma operand_there p q v l : q <> p -> operand p ((q, v) :: l) = operand p l.
Proof. intros H. unfold operand. by rewrite filter_cons_False. Qed.
Lemma operands_ok pb lb (ps : list (nat * list (nat * nat))) : pb <> lb -> (forall q, q ∈ ps -> exists v w, q.2 = [(pb, v); (lb, w)]) ->
  (exists us, mapM (fun q => operand pb q.2) ps = Some us /\ forall k x v w, ps !! k = Some (x, [(pb, v); (lb, w)]) -> us !! k = Some v) /\
  (exists us, mapM (fun q => operand lb q.2) ps = Some us /\ forall k x v w, ps !! k = Some (x, [(pb, v); (lb, w)]) -> us !! k = Some w).
Proof.
  intros Hne. induction ps as [|[x ops] ps IH]; intros H; [split; exists []; done|]. destruct IH as [(us1 & A1 & A2) (us2 & B1 & B2)]; [intros q Hq; apply H; by right|]. destruct (H (x, ops) ltac:(by left)) as (v & w & E). cbn in E. subst ops. split.
  - exists (v :: us1). split; [rewrite mapM_cons_eq; cbn [snd]; rewrite operand_here, A1; done|]. intros [|k] y v' w' Hk; cbn in Hk |- *; [by injection Hk as _ <- _ | by eapply A2].
  - exists (w :: us2). split; [rewrite mapM_cons_eq; cbn [snd]; rewrite operand_there, operand_here, B1 by done; done|]. intros [|k] y v' w' Hk; cbn in Hk |- *; [by injection Hk as _ _ <- | by eapply B2].
Qed.
Lemma used_ins b n x : n ∈ rnodes b -> x ∈ nins n -> used b x = true.
Proof. intros Hn Hx. unfold used. apply orb_true_intro. right. apply existsb_exists. exists n. split; [by apply elem_of_list_In|]. by apply bool_decide_eq_true. Qed.
Lemma used_res b x : x ∈ rres b -> used b x = true.
Proof. intros Hx. unfold used. apply orb_true_intro. left. by apply bool_decide_eq_true. Qed.

Section Sem.
  Context (opcode : op -> nat) (other : nat -> list val -> option (list val)) (content : val -> val) (sem : nat -> list val -> option (list val)) (truth : val -> bool) (K : Prop).
  Notation exec_block := (exec_block sem truth).
  Notation goes := (goes as_ctl).
  Notation runsN := (runsN sem truth).
  Notation from := (from sem truth).
  Notation correct := (correct sem truth K).
  Notation hold := (hold other content).
  Notation runs := (LocalRegion.Spec.runs other content).
  Notation loops := (loops other content).
  (** the arguments that have no users may have any values *)
  Definition override (b : region) (d rho : nat -> val) (x : nat) : val := if decide (x ∈ rargs b /\ used b x = false) then d x else rho x.
  Lemma override_used b d rho x : used b x = true -> override b d rho x = rho x.
  Proof. intros H. unfold override. rewrite decide_False; [done|]. intros [_ H']. congruence. Qed.
  Lemma override_hold b d rho : NoDup (names b) -> hold rho (rnodes b) -> hold (override b d rho) (rnodes b).
  Proof.
    intros Hn Hh n Hin. eapply holds_ext; [| |by apply Hh].
    - intros x Hx. symmetry. apply override_used. by eapply used_ins.
    - intros x Hx. symmetry. unfold override. rewrite decide_False; [done|]. intros [Ha _]. unfold names in Hn. apply NoDup_app in Hn as (_ & Hd & _). apply (Hd x Ha). apply elem_all_outs. by exists n.
  Qed.
  Lemma override_res b d rho : map (override b d rho) (rres b) = map rho (rres b).
  Proof. apply map_ext_in. intros x Hx%elem_of_list_In. apply override_used. by apply used_res. Qed.

  Lemma theta_correct b ins outs e s e' s' :
    region_correct other content sem truth K (convert_region opcode) b -> NoDup (names b) -> length (rargs b) = length ins -> length (rres b) = S (length ins) -> length outs = length ins ->
    convert_kind opcode (KTheta b) ins outs e s = Some (e', s') -> ok s -> bounded e (nv s) ->
    correct e s e' s' outs (fun rho => holds other content rho (Node (KTheta b) ins outs)).
  Proof.
    intros Hf Hnames Hla Hlr Hlo H Hk Hb. cbn [convert_kind] in H. set (eb := nb s) in *. set (s1 := next_block s) in *. apply bind_Some in H as (vs & Hvs & H). set (ls := zip (zip (rargs b) (tail (rres b))) vs) in *.
    destruct (theta_phis b eb ls s1) as [pres s2] eqn:Eph. apply bind_Some in H as (er & Her & H). apply bind_Some in H as ([e1 s3] & Hr & H). apply bind_Some in H as (posts & Hposts & H). apply bind_Some in H as (e2 & He2 & H). apply bind_Some in H as (q & Hq & H). apply bind_Some in H as (pv & Hpv & H). injection H as <- <-. set (s' := set_cur _ _).
    destruct (ok_cur s Hk) as [c Hc]. pose proof (ok_cur_lt _ Hk) as Hlt. pose proof (ok_low s Hk) as Hlow.
    destruct (rres b) as [|q' res] eqn:Eres; [done|]. cbn [head tail] in *. injection Hq as ->. cbn in Hlr. injection Hlr as Hlr.
    destruct (mapM_lookup _ _ _ Hvs) as [Hlv Hvs']. destruct (mapM_lookup _ _ _ Hposts) as [Hlp Hposts'].
    assert (Hk1 : ok s1) by (by apply next_block_ok).
    assert (Heb1 : bl s1 !! eb = Some (Block [] [])) by (unfold s1; rewrite next_block_bl by done; by rewrite decide_True).
    destruct (theta_phis_ok _ _ _ _ _ _ _ _ Eph Heb1) as (n & A1 & A2 & A3 & A4 & A5 & A6). cbn [app] in A1. change (nv s1) with (nv s) in *. change (cur s1) with eb in A2. change (nb s1) with (S eb) in A3.
    assert (Hlls : length ls = length ins). { unfold ls. rewrite !zip_with_length, Hla, Hlr, <-Hlv. lia. }
    destruct (A6 (cur s) (cur s3) posts ltac:(lia)) as (ps & B1 & B2 & B3 & B4).
    assert (Hbl2 : forall m, m <> eb -> bl s2 !! m = bl s1 !! m) by (intros m Hm; rewrite A1; by rewrite lookup_insert_ne).
    assert (Heb2 : bl s2 !! eb = Some (Block (map hole (seq (nv s) n)) [])) by (rewrite A1; by rewrite lookup_insert).
    assert (Hk2 : ok s2).
    { split; [lia| |rewrite A2; eauto]. intros m. rewrite A3. destruct (decide (m = eb)) as [->|Hm]; [rewrite Heb2; split; [lia | eauto]|]. rewrite Hbl2 by done. exact (ok_dom s1 Hk1 m). }
    assert (Hvb : forall v, v ∈ vs -> v < nv s). { intros v Hv. destruct (mapM_elem _ _ _ _ Hvs Hv) as (x & _ & Hx). by apply (Hb x). }
    assert (Hls : forall j, j < length ins -> exists pre post v pj w, rargs b !! j = Some pre /\ res !! j = Some post /\ vs !! j = Some v /\ pres !! j = Some pj /\ posts !! j = Some w /\ if requires_phi b pre post then exists k, ps !! k = Some (pj, [(cur s, v); (cur s3, w)]) else pj = v).
    { intros j Hj. destruct (lookup_lt_is_Some_2 (rargs b) j) as [pre E1]; [lia|]. destruct (lookup_lt_is_Some_2 res j) as [post E2]; [lia|]. destruct (lookup_lt_is_Some_2 vs j) as [v E3]; [lia|]. destruct (B4 j pre post v) as (pj & w & C1 & C2 & C3); [unfold ls; apply lookup_zip_with_Some; exists (pre, post), v; split; [done|]; split; [|done]; apply lookup_zip_with_Some; by exists pre, post|]. by exists pre, post, v, pj, w. }
    assert (Hpb : forall v, v ∈ pres -> v < nv s2).
    { intros v Hv. apply elem_of_list_lookup in Hv as [j Hj]. destruct (Hls j) as (pre & post & w & pj & w' & _ & _ & E3 & E4 & _ & E6); [rewrite <-Hlls, <-A5; by eapply lookup_lt_Some|]. rewrite Hj in E4. injection E4 as <-. rewrite A4. destruct (requires_phi b pre post).
      - destruct E6 as [k Hk']. assert (Hx : map fst ps !! k = Some v) by (change (map fst ps) with (fst <$> ps); by rewrite list_lookup_fmap, Hk'). rewrite B2 in Hx. apply lookup_seq in Hx as [-> Hx]. lia.
      - subst v. assert (w < nv s) by (apply Hvb; by eapply elem_of_list_lookup_2). lia. }
    assert (Hber : bounded er (nv s2)). { intros x v Hx. apply (insert_vars_cases _ _ _ _ _ _ Her) in Hx as [Hx|(j & _ & Hj)]; [by rewrite lookup_empty in Hx|]. apply Hpb. by eapply elem_of_list_lookup_2. }
    destruct (Hf _ _ _ _ Hr Hk2 Hber) as (t & -> & Ht). set (a := next_block s2) in *. assert (Hka : ok a) by (by apply next_block_ok). pose proof (c_ok _ _ _ _ _ _ _ _ _ Ht) as Hkt. pose proof (c_grow _ _ _ _ _ _ _ _ _ Ht) as Hg. pose proof (ok_cur_lt _ Hkt) as Hct. pose proof (g_nb _ _ Hg) as Hgn. pose proof (g_nv _ _ Hg) as Hgv. pose proof (g_cur _ _ Hg) as Hgc. pose proof (c_bound _ _ _ _ _ _ _ _ _ Ht) as Hbt.
    assert (Hna : nb a = S (S eb)) by (change (nb a) with (S (nb s2)); lia). assert (Hca : cur a = S eb) by (change (cur a) with (nb s2); lia). assert (Hva : nv a = nv s2) by done.
    set (lb := nb t) in *. change (cur (next_block t)) with lb in *. set (xb := S lb) in *.
    destruct (ok_cur t Hkt) as [ct Hct'].
    assert (Hbla : bl a !! cur a = Some (Block [] [])) by (unfold a; rewrite next_block_bl by done; rewrite decide_True by done; done).
    assert (Hbls' : forall m, bl s' !! m = if decide (m = xb) then Some (Block [] []) else if decide (m = lb) then Some (Block [Tac (BranchOn pv)] [xb; eb]) else if decide (m = eb) then Some (Block (map phi ps) [S eb]) else if decide (m = cur t) then Some (Block ct [lb]) else bl t !! m).
    { intros m. unfold s', set_cur, add_edge, append, create_block. cbn [bl nb cur nv next_block set_cur add_edge create_block]. fold lb. fold xb. assert (Hne : eb <> lb) by lia.
      case_decide as E1; [subst m; rewrite !lookup_alter_ne, lookup_insert by (unfold xb; lia); done|].
      case_decide as E2.
      { subst m. rewrite lookup_alter, lookup_alter, lookup_insert_ne by (unfold xb; lia). rewrite lookup_alter, lookup_alter_ne by lia. rewrite lookup_alter_ne, lookup_insert by lia. done. }
      rewrite !(lookup_alter_ne _ _ lb m) by done. rewrite lookup_insert_ne by done. rewrite (lookup_alter_ne _ _ lb m) by done.
      case_decide as E3.
      { subst m. rewrite lookup_alter, lookup_alter_ne by lia. rewrite lookup_insert_ne by done. rewrite (g_old _ _ Hg) by lia. unfold a. rewrite next_block_bl by done. rewrite decide_False by lia. rewrite decide_True by done. rewrite Heb2. cbn. by rewrite B1, A3. }
      rewrite (lookup_alter_ne _ _ eb m) by done. case_decide as E4; [subst m; rewrite lookup_alter, lookup_insert_ne by done; by rewrite Hct'|]. rewrite lookup_alter_ne, lookup_insert_ne by done. done. }
    assert (Hnb' : nb s' = S xb) by done. assert (Hnv' : nv s' = nv t) by done. assert (Hcur' : cur s' = xb) by done.
    assert (Hk' : ok s').
    { split; [unfold xb in *; lia| |exists []; rewrite Hbls'; by rewrite decide_True]. intros m. rewrite Hbls', Hnb'. pose proof (ok_dom t Hkt m) as Hd. fold lb in Hd. case_decide as E1; [subst m; split; [unfold xb in *; lia | eauto]|]. case_decide as E2; [subst m; split; [unfold xb in *; lia | eauto]|]. case_decide as E3; [subst m; split; [unfold xb in *; lia | eauto]|]. case_decide as E4; [subst m; split; [unfold xb in *; lia | eauto]|]. rewrite Hd. unfold xb in *. lia. }
    destruct (insert_vars_inv _ _ _ _ Her) as (_ & Hnda & _ & Hero & Heri).
    assert (Hb' : bounded e2 (nv s')). { intros x v Hx. apply (insert_vars_cases _ _ _ _ _ _ He2) in Hx as [Hx|(j & _ & Hj)]; [specialize (Hb x v Hx); lia|]. destruct (mapM_elem _ _ _ v Hposts) as (y & _ & Hy); [by eapply elem_of_list_lookup_2|]. by apply (Hbt y). }
    assert (Hsub2 : forall x v, e !! x = Some v -> e2 !! x = Some v) by (apply (insert_vars_sub _ _ _ _ He2)).
    assert (Hcs : bl s' !! cur s = Some (Block c [eb])).
    { rewrite Hbls', decide_False, decide_False, decide_False, decide_False by (unfold xb in *; lia). rewrite (g_old _ _ Hg) by lia. unfold a. rewrite next_block_bl by done. rewrite decide_False, decide_False by lia. rewrite Hbl2 by lia. unfold s1. rewrite next_block_bl by done. rewrite decide_False, decide_True by (done || lia). by rewrite Hc. }
    (* the way through the graph *)
    assert (Hpl : cur s <> lb) by lia. destruct (operands_ok _ _ ps Hpl B3) as [(us1 & U1 & U2) (us2 & V1 & V2)].
    set (ups := fun pr => if decide (pr = cur s) then us1 else us2). set (inv := fun pr => if decide (pr = cur s) then vs else posts).
    assert (Hops : forall pr, pr = cur s \/ pr = lb -> mapM (fun q => operand pr q.2) ps = Some (ups pr)). { intros pr [-> | ->]; unfold ups; [by rewrite decide_True | by rewrite decide_False]. }
    assert (Hpre : forall j pre post, rargs b !! j = Some pre -> res !! j = Some post -> requires_phi b pre post = false -> used b pre = true -> posts !! j = vs !! j).
    { intros j pre post E1 E2 Hn Hu. unfold requires_phi in Hn. rewrite Hu in Hn. rewrite andb_true_r in Hn. apply negb_false_iff, bool_decide_eq_true in Hn. subst post. destruct (Hls j) as (pre' & post' & v & pj & w & F1 & F2 & F3 & F4 & F5 & F6); [rewrite <-Hla; by eapply lookup_lt_Some|]. rewrite E1 in F1. injection F1 as <-. rewrite E2 in F2. injection F2 as <-.
      unfold requires_phi in F6. rewrite bool_decide_eq_true_2 in F6 by done. cbn in F6. subst pj. rewrite <-(Hposts' j pre E2). rewrite F3. apply (c_sub _ _ _ _ _ _ _ _ _ Ht). rewrite (Heri j pre E1). done. }
    (* what the phis do *)
    assert (Hphis : forall pr σ, pr = cur s \/ pr = lb -> let σ1 := upd_all (fst <$> ps) (map σ (ups pr)) σ in frame (nv s) σ σ1 /\ forall j pre pj v, rargs b !! j = Some pre -> pres !! j = Some pj -> inv pr !! j = Some v -> used b pre = true -> σ1 pj = σ v).
    { intros pr σ Hpr σ1. assert (Hf1 : frame (nv s) σ σ1). { intros v Hv. unfold σ1. change (fst <$> ps) with (map fst ps). rewrite B2. by apply upd_all_seq_old. } split; [done|].
      intros j pre pj v E1 E2 E3 Hu. destruct (Hls j) as (pre' & post & v' & pj' & w & F1 & F2 & F3 & F4 & F5 & F6); [rewrite <-Hla; by eapply lookup_lt_Some|]. rewrite E1 in F1. injection F1 as <-. rewrite E2 in F4. injection F4 as <-. destruct (requires_phi b pre post) eqn:En.
      - destruct F6 as [k Hk0]. assert (Hups : ups pr !! k = Some v). { unfold ups, inv in *. case_decide; [rewrite E3 in F3; injection F3 as <-; by eapply U2 | rewrite E3 in F5; injection F5 as <-; by eapply V2]. }
        unfold σ1. eapply upd_all_in; [change (fst <$> ps) with (map fst ps); rewrite B2; apply NoDup_seq | by rewrite list_lookup_fmap, Hk0 | change (map σ (ups pr)) with (σ <$> ups pr); by rewrite list_lookup_fmap, Hups].
      - subst pj. rewrite Hf1 by (apply Hvb; by eapply elem_of_list_lookup_2). f_equal. unfold inv in E3. case_decide; [congruence|]. rewrite (Hpre _ _ _ E1 F2 En Hu) in E3. congruence. }
    assert (Hlinv : forall pr, length (inv pr) = length ins) by (intros pr; unfold inv; case_decide; lia).
    assert (Hgraph : forall G, fits G s s' -> fits G a t /\ (forall σ k σf, from G s k σ σf <-> runsN G k (cur s) eb σ σf) /\
      (forall pr σ k σf, pr = cur s \/ pr = lb -> runsN G k pr eb σ σf <-> exists k', k = S (S k') /\ from G a k' (upd_all (fst <$> ps) (map σ (ups pr)) σ) σf) /\
      (forall σ k σf, from G t k σ σf <-> exists k', k = S k' /\ ((σ pv = VCtl 0 /\ exists k2, k' = S k2 /\ from G s' k2 σ σf) \/ (σ pv = VCtl 1 /\ runsN G k' lb eb σ σf)))).
    { intros G HG. assert (EG : forall m, nb s <= m < xb -> G !! m = bl s' !! m) by (intros m Hm; apply (f_blocks _ _ _ HG); [left; rewrite Hnb'; lia | rewrite Hcur'; lia]).
      assert (EGc : G !! cur s = Some (Block c [eb])) by (rewrite (f_blocks _ _ _ HG); [done | by right | rewrite Hcur'; unfold xb in *; lia]).
      assert (EGt : G !! cur t = Some (Block ct [lb])). { rewrite EG by (unfold xb in *; lia). rewrite Hbls', decide_False, decide_False, decide_False, decide_True by (unfold xb in *; lia). done. }
      assert (Hfit : fits G a t). { split.
        - intros m Hm Hne. rewrite EG by (unfold xb in *; lia). rewrite Hbls', decide_False, decide_False, decide_False, decide_False by (unfold xb in *; lia). done.
        - exists ct, [], [lb]. cbn [fmap list_fmap]. rewrite app_nil_r. done. }
      split; [done|]. split; [intros σ k σf; by apply from_goto with c|]. split.
      - intros pr σ k σf Hpr. assert (EGe : G !! eb = Some (Block (map phi ps) [S eb])). { rewrite EG by (unfold xb in *; lia). rewrite Hbls', decide_False, decide_False, decide_True by (unfold xb in *; lia). done. }
        rewrite (enter_goto sem truth G eb ps (S eb) pr k σ σf) by (done || (unfold exit; lia)). rewrite (Hops pr Hpr). destruct (fits_here G a t Hka Hkt Hg Hfit) as (c1 & ts & ss & F1 & F2). rewrite Hbla in F1. injection F1 as <-. cbn [app] in F2.
        assert (Hent : forall k p σ, runsN G k p (S eb) σ σf <-> exists k', k = S k' /\ from G a k' σ σf).
        { intros k0 p0 σ0. rewrite <-Hca. rewrite (enter_from sem truth G a [] ts ss p0 k0 σ0 σf) by (done || (unfold exit; lia)). cbn [mapM map fmap list_fmap]. split; [intros (k' & us & -> & [= <-] & Hx); by exists k' | intros (k' & -> & Hx); by exists k', []]. }
        split.
        + intros (k' & us & -> & [= <-] & Hx). apply Hent in Hx as (k2 & -> & Hx). by exists k2.
        + intros (k' & -> & Hx). exists (S k'), (ups pr). split; [done|]. split; [done|]. apply Hent. by exists k'.
      - intros σ k σf. rewrite (from_goto sem truth G t ct lb k σ σf Hct' EGt). assert (EGl : G !! lb = Some (Block [Tac (BranchOn pv)] [xb; eb])). { rewrite EG by (unfold xb in *; lia). rewrite Hbls', decide_False, decide_True by (unfold xb in *; lia). done. }
        rewrite (enter sem truth G lb [] [BranchOn pv] [xb; eb] (cur t) k σ σf) by (done || (unfold exit; lia)). cbn [mapM map fmap list_fmap app].
        destruct (f_cur _ _ _ HG) as (c1 & ts & ss & F1 & F2). rewrite Hcur' in F1, F2. rewrite Hbls', decide_True in F1 by done. injection F1 as <-. cbn [app] in F2.
        assert (Hent : forall k p σ, runsN G k p xb σ σf <-> exists k', k = S k' /\ from G s' k' σ σf).
        { intros k0 p0 σ0. change xb with (cur s'). rewrite (enter_from sem truth G s' [] ts ss p0 k0 σ0 σf); [|rewrite Hcur'; unfold exit, xb; lia | rewrite Hcur', Hbls', decide_True by done; done | exact F2]. cbn [mapM map fmap list_fmap]. split; [intros (k' & us & -> & [= <-] & Hx); by exists k' | intros (k' & -> & Hx); by exists k', []]. }
        split.
        + intros (k' & us & σ1 & m & -> & [= <-] & (σ2 & H2 & H3) & Hgo & Hx). cbn in H2, H3. subst σ2 σ1. unfold upd_all in Hgo, Hx. cbn in Hgo, Hx. exists k'. split; [done|]. destruct Hgo as (q0 & i & Hq & Hi & Hm). cbn in Hq. injection Hq as <-.
          destruct (σ pv) as [z|w z|z] eqn:Ez; try done. cbn in Hi. injection Hi as ->. destruct i as [|[|i]]; cbn in Hm; [|  | done]; injection Hm as <-; [left | right]; (split; [done|]); [by apply Hent in Hx | done].
        + intros (k' & -> & [(Hz & k2 & -> & Hx)|(Hz & Hx)]).
          * exists (S k2), [], σ, xb. split; [done|]. split; [done|]. split; [by exists σ|]. split; [exists pv, 0; by rewrite Hz|]. apply Hent. by exists k2.
          * exists k', [], σ, eb. split; [done|]. split; [done|]. split; [by exists σ|]. split; [exists pv, 1; by rewrite Hz|]. done. }
    assert (Hargs : forall x v, er !! x = Some v -> exists j, rargs b !! j = Some x /\ pres !! j = Some v). { intros x v Hx. apply (insert_vars_cases _ _ _ _ _ _ Her) in Hx as [Hx|Hx]; [by rewrite lookup_empty in Hx | exact Hx]. }
    (* the loop *)
    assert (Hloop_fwd : K -> forall G, fits G s s' -> forall b0 us ws, loops b0 us ws -> b0 = b -> forall pr σ, pr = cur s \/ pr = lb -> map σ (inv pr) = us ->
      exists σ', frame (nv s) σ σ' /\ map σ' posts = ws /\ forall k σf, from G s' k σ' σf -> exists k', runsN G k' pr eb σ σf).
    { intros HK G HG. destruct (Hgraph G HG) as (F1 & F2 & F3 & F4).
      assert (Hiter : forall pr σ us vs', pr = cur s \/ pr = lb -> map σ (inv pr) = us -> runs b us vs' -> exists σ2 z zs, vs' = z :: zs /\ frame (nv s) σ σ2 /\ σ2 pv = z /\ map σ2 posts = zs /\ forall k σf, from G t k σ2 σf -> exists k', runsN G k' pr eb σ σf).
      { intros pr σ us vs' Hpr Hus Hrun. apply runs_iff in Hrun as (rho & R1 & R2 & R3). destruct (Hphis pr σ Hpr) as [P1 P2]. set (σ1 := upd_all (fst <$> ps) (map σ (ups pr)) σ) in *.
        set (rr := override b (fun x => match er !! x with Some v => σ1 v | None => rho x end) rho).
        assert (Har : agree er σ1 rr).
        { intros x v Hx. unfold rr. destruct (Hargs x v Hx) as (j & E1 & E2). destruct (used b x) eqn:Eu.
          - rewrite override_used by done. destruct (lookup_lt_is_Some_2 (inv pr) j) as [w Hw]; [rewrite Hlinv, <-Hla; by eapply lookup_lt_Some|]. rewrite (P2 j x v w E1 E2 Hw Eu). subst us. apply (f_equal (fun l => l !! j)) in R1. change (map rho (rargs b)) with (rho <$> rargs b) in R1. change (map σ (inv pr)) with (σ <$> inv pr) in R1. rewrite !list_lookup_fmap, E1, Hw in R1. by injection R1.
          - unfold override. rewrite decide_True by (split; [by eapply elem_of_list_lookup_2 | done]). by rewrite Hx. }
        assert (Hhr : hold rr (rnodes b)) by (by apply override_hold).
        destruct (c_fwd _ _ _ _ _ _ _ _ _ Ht HK G F1 rr σ1 Hhr Har) as (σ2 & M1 & M2 & M3).
        assert (E0 : map rr (rres b) = vs'). { rewrite <-R3. apply override_res. }
        rewrite Eres in E0. cbn [map] in E0. exists σ2, (rr q), (map rr res). split; [done|]. split; [|split; [by apply M2|split; [by apply (map_agree e1)|]]].
        - intros v Hv. rewrite M1 by lia. by apply P1.
        - intros k σf Hx. destruct (M3 _ _ Hx) as (k' & Hx'). exists (S (S k')). apply F3; [done|]. by exists k'. }
      intros b0 us ws Hl. induction Hl as [b0 us ws Hrun|b0 us us' ws Hrun Hl IH]; intros -> pr σ Hpr Hus.
      - destruct (Hiter pr σ us _ Hpr Hus Hrun) as (σ2 & z & zs & [= <- <-] & K1 & K2 & K3 & K4). exists σ2. split; [done|]. split; [done|]. intros k σf Hx. apply (K4 (S (S k))). apply F4. exists (S k). split; [done|]. left. split; [done|]. by exists k.
      - destruct (Hiter pr σ us _ Hpr Hus Hrun) as (σ2 & z & zs & [= <- <-] & K1 & K2 & K3 & K4). destruct (IH eq_refl lb σ2) as (σ3 & L1 & L2 & L3); [by right | unfold inv; rewrite decide_False by done; done|]. exists σ3. split; [intros v Hv; rewrite L1 by done; by apply K1|]. split; [done|]. intros k σf Hx. destruct (L3 _ _ Hx) as (k' & Hx'). apply (K4 (S k')). apply F4. exists k'. split; [done|]. by right. }
    assert (Hloop_bwd : K -> forall G, fits G s s' -> forall k pr σ σf, pr = cur s \/ pr = lb -> runsN G k pr eb σ σf -> exists σ' k', k' <= k /\ frame (nv s) σ σ' /\ from G s' k' σ' σf /\ loops b (map σ (inv pr)) (map σ' posts)).
    { intros HK G HG. destruct (Hgraph G HG) as (F1 & F2 & F3 & F4). intros k. induction (lt_wf k) as [k _ IH]. intros pr σ σf Hpr Hx. apply F3 in Hx as (k1 & -> & Hx); [|done]. destruct (Hphis pr σ Hpr) as [P1 P2]. set (σ1 := upd_all (fst <$> ps) (map σ (ups pr)) σ) in *.
      destruct (c_bwd _ _ _ _ _ _ _ _ _ Ht HK G F1 _ _ _ Hx) as (σ2 & k2 & M0 & M1 & M2 & M3). set (us := map σ (inv pr)). set (dm := list_to_map (zip (rargs b) us) : gmap nat val).
      set (r0 := fun x => match e1 !! x with Some v => σ2 v | None => VAny 0 end). assert (Hr0 : agree e1 σ2 r0) by (intros x v Hv; unfold r0; by rewrite Hv).
      set (rr := override b (fun x => match dm !! x with Some z => z | None => VAny 0 end) r0).
      assert (Hlus : length us = length ins) by (unfold us; rewrite map_length; apply Hlinv).
      assert (Hra : map rr (rargs b) = us).
      { apply map_eq_lookup; [lia|]. intros j x Hj. destruct (lookup_lt_is_Some_2 us j) as [z Hz]; [rewrite Hlus, <-Hla; by eapply lookup_lt_Some|]. rewrite Hz. f_equal. unfold rr. destruct (used b x) eqn:Eu.
        - rewrite override_used by done. assert (Hjl : j < length ins) by (rewrite <-Hla; by eapply lookup_lt_Some). destruct (lookup_lt_is_Some_2 pres j) as [pj Hpj]; [lia|]. destruct (lookup_lt_is_Some_2 (inv pr) j) as [w Hw]; [rewrite Hlinv; lia|].
          assert (E1 : er !! x = Some pj) by (rewrite (Heri j x Hj); done). rewrite <-(Hr0 x pj) by (by apply (c_sub _ _ _ _ _ _ _ _ _ Ht)). rewrite M1 by (rewrite Hva; by apply (Hber x)). rewrite (P2 j x pj w Hj Hpj Hw Eu). unfold us in Hz. change (map σ (inv pr)) with (σ <$> inv pr) in Hz. rewrite list_lookup_fmap, Hw in Hz. by injection Hz.
        - unfold override. rewrite decide_True by (split; [by eapply elem_of_list_lookup_2 | done]). assert (E1 : dm !! x = Some z). { apply elem_of_list_to_map_1; [rewrite fst_zip by lia; done|]. apply elem_of_list_lookup. exists j. apply lookup_zip_with_Some. by exists x, z. } by rewrite E1. }
      assert (Hrun : forall z, σ2 pv = z -> runs b us (z :: map σ2 posts)).
      { intros z Hz. apply runs_iff. exists rr. split; [done|]. split; [apply override_hold; [done|]; by apply M3|]. unfold rr. rewrite override_res, Eres. cbn [map]. f_equal; [by rewrite <-(Hr0 _ _ Hpv) | symmetry; by apply (map_agree e1)]. }
      assert (Hf2 : frame (nv s) σ σ2) by (intros v Hv; rewrite M1 by lia; by apply P1).
      apply F4 in M2 as (k3 & -> & [(Hz & k4 & -> & Hx')|(Hz & Hx')]).
      - exists σ2, k4. split; [lia|]. split; [done|]. split; [done|]. apply l_exit. by apply Hrun.
      - destruct (IH k3 ltac:(lia) lb σ2 σf ltac:(by right) Hx') as (σ3 & k5 & L1 & L2 & L3 & L4). exists σ3, k5. split; [lia|]. split; [intros v Hv; rewrite L2 by done; by apply Hf2|]. split; [done|]. eapply l_again; [by apply Hrun|]. unfold inv in L4. rewrite decide_False in L4 by done. exact L4. }
    split.
    - split; [unfold xb in *; lia | lia | | right; unfold xb in *; lia |].
      + intros m Hm Hne. rewrite Hbls', decide_False, decide_False, decide_False, decide_False by (unfold xb in *; lia). rewrite (g_old _ _ Hg) by lia. unfold a. rewrite next_block_bl by done. rewrite decide_False, decide_False by lia. rewrite Hbl2 by lia. unfold s1. rewrite next_block_bl by done. rewrite decide_False, decide_False by (done || lia). done.
      + intros c' Hc'. rewrite Hc in Hc'. injection Hc' as <-. exists [], [eb]. cbn [fmap list_fmap]. by rewrite app_nil_r.
    - done.
    - done.
    - exact Hsub2.
    - intros x v Hx. apply (insert_vars_cases _ _ _ _ _ _ He2) in Hx as [Hx|(j & Hj & _)]; [by left | right; by eapply elem_of_list_lookup_2].
    - intros HK G HG rho σ Hh Ha. unfold holds in Hh. cbn [nkind nins nouts] in Hh. inversion Hh as [| |b0 vs0 ws0 Hl]; subst. destruct (Hloop_fwd HK G HG _ _ _ Hl eq_refl (cur s) σ) as (σ' & K1 & K2 & K3); [by left | unfold inv; rewrite decide_True by done; by apply (map_agree e)|]. exists σ'. split; [done|]. split.
      + intros x v Hx. apply (insert_vars_cases _ _ _ _ _ _ He2) in Hx as [Hx|(j & Hj & Hv)]; [rewrite K1 by (by apply (Hb x)); by apply Ha|]. apply (f_equal (fun l => l !! j)) in K2. change (map σ' posts) with (σ' <$> posts) in K2. change (map rho outs) with (rho <$> outs) in K2. rewrite !list_lookup_fmap, Hj, Hv in K2. by injection K2.
      + intros k σf Hx. destruct (K3 _ _ Hx) as (k' & Hx'). exists k'. by apply (Hgraph G HG).
    - intros HK G HG σ k σf Hx. apply (Hgraph G HG) in Hx. destruct (Hloop_bwd HK G HG k (cur s) σ σf ltac:(by left) Hx) as (σ' & k' & K0 & K1 & K2 & K3). exists σ', k'. split; [done|]. split; [done|]. split; [done|]. intros rho Ha.
      assert (Ha0 : agree e σ rho). { eapply agree_frame; [exact Hb | exact K1|]. intros y v Hv. apply Ha. by apply Hsub2. }
      unfold holds. cbn [nkind nins nouts]. constructor. unfold inv in K3. rewrite decide_True in K3 by done. rewrite <-(map_agree _ _ _ _ _ Ha0 Hvs). replace (map rho outs) with (map σ' posts); [done|]. symmetry. apply map_eq_lookup; [rewrite map_length; lia|]. intros j x Hj. destruct (insert_vars_inv _ _ _ _ He2) as (Hl2 & _ & _ & _ & Hi2). destruct (lookup_lt_is_Some_2 posts j) as [w Hw]; [rewrite <-Hl2; by eapply lookup_lt_Some|].
      change (map σ' posts) with (σ' <$> posts). rewrite list_lookup_fmap, Hw. cbn. f_equal. apply Ha. rewrite (Hi2 j x Hj). done.
  Qed.
End Sem.
