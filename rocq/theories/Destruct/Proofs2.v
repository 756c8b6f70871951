(** Simple nodes; entering and leaving blocks; the subregions and outputs of gamma nodes. *)
From stdpp Require Import base list gmap.
From Coq Require Import Lia.
From Verif.Construct Require Import Model Spec.
From Verif.Cfg Require Import Model Spec ProofsBase.
From Verif.LocalRegion Require Import Model Spec Facts.
From Verif.Destruct Require Import Model Spec Proofs1.

Lemma upd_all_cons (v : nat) vs (x : val) xs σ : upd_all (v :: vs) (x :: xs) σ = upd_all vs xs (upd v x σ).
Proof. done. Qed.
Lemma upd_all_out vs : forall (xs : list val) σ v, v ∉ vs -> upd_all vs xs σ v = σ v.
Proof.
  induction vs as [|w vs IH]; intros [|x xs] σ v Hv; try done. rewrite upd_all_cons. apply not_elem_of_cons in Hv as [H1 H2]. rewrite IH by done. unfold upd. by rewrite decide_False.
Qed.
Lemma upd_all_in vs : forall (xs : list val) σ j v x, NoDup vs -> vs !! j = Some v -> xs !! j = Some x -> upd_all vs xs σ v = x.
Proof.
  induction vs as [|w vs IH]; intros [|y xs] σ [|j] v x Hn Hv Hx; try done; rewrite upd_all_cons; apply NoDup_cons in Hn as [Hw Hn]; cbn in Hv, Hx.
  - injection Hv as ->. injection Hx as ->. rewrite upd_all_out by done. unfold upd. by rewrite decide_True.
  - by eapply IH.
Qed.
Lemma upd_all_seq_old n m (xs : list val) σ v : v < n -> upd_all (seq n m) xs σ v = σ v.
Proof. intros H. apply upd_all_out. rewrite elem_of_seq. lia. Qed.
Lemma upd_all_seq_new n m (xs : list val) σ j x : xs !! j = Some x -> j < m -> upd_all (seq n m) xs σ (n + j) = x.
Proof. intros Hj Hl. eapply upd_all_in; [apply NoDup_seq | | exact Hj]. apply lookup_seq. done. Qed.
Lemma map_eq_lookup {A B} (f : A -> B) l k : length l = length k -> (forall j x, l !! j = Some x -> k !! j = Some (f x)) -> map f l = k.
Proof. revert k. induction l as [|x l IH]; intros [|y k] Hl H; try done. cbn. pose proof (H 0 x eq_refl) as E. injection E as ->. f_equal. apply IH; [by injection Hl | intros j z; apply (H (S j))]. Qed.

Definition dom_ok (s : state) : Prop := 1 < nb s /\ forall n, is_Some (bl s !! n) <-> 1 < n < nb s.
Lemma ok_dom_ok s : ok s -> dom_ok s.
Proof. intros [H1 H2 H3]. done. Qed.

Section Sem.
  Context (opcode : op -> nat) (other : nat -> list val -> option (list val)) (content : val -> val) (sem : nat -> list val -> option (list val)) (truth : val -> bool) (K : Prop).
  Notation exec_block := (exec_block sem truth).
  Notation goes := (goes as_ctl).
  Notation runsN := (runsN sem truth).
  Notation from := (from sem truth).
  Notation correct := (correct sem truth K).
  Notation hold := (hold other content).
  Lemma enter_from (G : gmap nat block) s ps ts ss p k σ σf : cur s <> exit -> bl s !! cur s = Some (Block (map phi ps) []) -> G !! cur s = Some (Block (map phi ps ++ (Tac <$> ts)) ss) ->
    runsN G k p (cur s) σ σf <-> exists k' us, k = S k' /\ mapM (fun q => operand p q.2) ps = Some us /\ from G s k' (upd_all (fst <$> ps) (map σ us) σ) σf.
  Proof.
    intros Hn Hs HG. rewrite (enter sem truth G (cur s) ps ts ss) by done. split.
    - intros (k' & us & σ1 & m & -> & H1 & H2 & H3 & H4). exists k', us. split; [done|]. split; [done|]. exists (map phi ps), ts, ss, σ1, m. done.
    - intros (k' & us & -> & H1 & c & ts' & ss' & σ1 & m & H2 & H3 & H4 & H5 & H6). exists k', us, σ1, m. rewrite Hs in H2. injection H2 as <-. rewrite HG in H3. injection H3 as H3 <-. apply app_inv_head, tacs_inj in H3 as ->. done.
  Qed.
  Lemma enter_goto (G : gmap nat block) n ps m p k σ σf : n <> exit -> G !! n = Some (Block (map phi ps) [m]) ->
    runsN G k p n σ σf <-> exists k' us, k = S k' /\ mapM (fun q => operand p q.2) ps = Some us /\ runsN G k' n m (upd_all (fst <$> ps) (map σ us) σ) σf.
  Proof.
    intros Hn HG. rewrite (enter sem truth G n ps [] [m]) by (cbn; rewrite ?app_nil_r; done). split.
    - intros (k' & us & σ1 & m' & -> & H1 & H2 & H3 & H4). cbn in H2. subst σ1. unfold Cfg.Spec.goes in H3. cbn in H3. subst m'. eauto.
    - intros (k' & us & -> & H1 & H2). exists k', us, (upd_all (fst <$> ps) (map σ us) σ), m. done.
  Qed.
  Lemma from_goto (G : gmap nat block) s c m k σ σf : bl s !! cur s = Some (Block c []) -> G !! cur s = Some (Block c [m]) -> from G s k σ σf <-> runsN G k (cur s) m σ σf.
  Proof.
    intros Hs HG. split.
    - intros (c1 & ts1 & ss1 & σ1 & m' & H1 & H2 & H3 & H4 & H5). rewrite Hs in H1. injection H1 as <-. rewrite HG in H2. injection H2 as H2 <-. assert (ts1 = []) as ->. { destruct ts1; [done|]. exfalso. apply (f_equal length) in H2. rewrite app_length in H2. cbn in H2. lia. }
      cbn in H3. subst σ1. unfold Cfg.Spec.goes in H4. cbn [succ] in H4. by subst m'.
    - intros H. exists c, [], [m], σ, m. cbn [fmap list_fmap]. rewrite app_nil_r. done.
  Qed.

  (** simple nodes *)
  Lemma simple_correct o ins outs e s e' s' : (K -> forall o vs, sem (opcode o) vs = op_sem other o vs) -> convert_kind opcode (KSimple o) ins outs e s = Some (e', s') -> ok s -> bounded e (nv s) ->
    correct e s e' s' outs (fun rho => holds other content rho (Node (KSimple o) ins outs)).
  Proof.
    intros Hsem H Hk Hb. cbn [convert_kind] in H. apply bind_Some in H as (ops & Hops & H). apply bind_Some in H as (e1 & He & [= <- <-]). set (n := length outs) in *. set (x := Op (opcode o) ops (seq (nv s) n)). destruct (ok_cur s Hk) as [c Hc]. pose proof (ok_cur_lt _ Hk) as Hlt.
    destruct (insert_vars_inv _ _ _ _ He) as (_ & Hnd & Hnew & Hout & Hin). set (s' := append (cur s) (Tac x) n s).
    assert (Hbl : bl s' !! cur s = Some (Block (c ++ [Tac x]) [])) by (cbn; by rewrite lookup_alter, Hc).
    assert (Hbl' : forall m, m <> cur s -> bl s' !! m = bl s !! m) by (intros m Hm; cbn; by rewrite lookup_alter_ne).
    assert (Hb' : bounded e1 (nv s')). { intros y v Hv. apply (insert_vars_cases _ _ _ _ _ _ He) in Hv as [Hv|(j & _ & Hv)]; [specialize (Hb y v Hv); cbn; lia|]. apply lookup_seq in Hv as [-> Hv]. cbn. lia. }
    assert (Hstep : forall G, fits G s s' -> forall k σ σf, from G s k σ σf <-> exists σ1, exec_tac sem truth x σ σ1 /\ from G s' k σ1 σf).
    { intros G [_ (c' & ts & ss & F2 & F3)] k σ σf. change (cur s') with (cur s) in *. rewrite Hbl in F2. injection F2 as <-.
      assert (F4 : G !! cur s = Some (Block (c ++ (Tac <$> x :: ts)) ss)) by (rewrite F3, <-(assoc_L (++)); done). split.
      - intros (c1 & ts1 & ss1 & σ1 & m & H1 & H2 & H3 & H4 & H5). rewrite Hc in H1. injection H1 as <-. rewrite F4 in H2. injection H2 as H2 <-. apply app_inv_head, (tacs_inj (x :: ts)) in H2 as <-. destruct H3 as (σ2 & H3 & H6). exists σ2. split; [done|].
        exists (c ++ [Tac x]), ts, ss, σ1, m. rewrite <-(assoc_L (++)). change (cur s') with (cur s). split; [done|]. split; [done|]. done.
      - intros (σ2 & H3 & c1 & ts1 & ss1 & σ1 & m & H1 & H2 & H6 & H4 & H5). change (cur s') with (cur s) in *. rewrite Hbl in H1. injection H1 as <-. rewrite F3 in H2. injection H2 as H2 <-. apply app_inv_head, tacs_inj in H2 as <-.
        exists c, (x :: ts), ss, σ1, m. split; [done|]. split; [done|]. split; [by exists σ2|]. rewrite <-(assoc_L (++)) in H4. done. }
    split.
    - split; [cbn; lia | cbn; lia | intros m _; apply Hbl' | by left|]. intros c' Hc'. exists [x], []. rewrite Hbl. rewrite Hc in Hc'. by injection Hc' as <-.
    - split; [exact (ok_low s Hk)| |by exists (c ++ [Tac x])]. intros m. destruct (decide (m = cur s)) as [->|Hm]; [rewrite Hbl; cbn; split; [done | eauto]|]. rewrite Hbl' by done. exact (ok_dom s Hk m).
    - exact Hb'.
    - by apply (insert_vars_sub _ _ _ _ He).
    - intros y v Hv. apply (insert_vars_cases _ _ _ _ _ _ He) in Hv as [Hv|(j & Hj & Hv)]; [by left|]. right. by eapply elem_of_list_lookup_2.
    - intros HK G HG rho σ Hh Ha. exists (upd_all (seq (nv s) n) (map rho outs) σ). assert (Hf : frame (nv s) σ (upd_all (seq (nv s) n) (map rho outs) σ)) by (intros v Hv; by apply upd_all_seq_old). split; [done|]. split.
      + intros y v Hv. apply (insert_vars_cases _ _ _ _ _ _ He) in Hv as [Hv|(j & Hj & Hv)].
        * rewrite Hf by (by eapply Hb). by apply Ha.
        * apply lookup_seq in Hv as [-> Hv]. apply upd_all_seq_new; [|done]. change (map rho outs) with (rho <$> outs). by rewrite list_lookup_fmap, Hj.
      + intros k σf Hf'. exists k. apply (Hstep G HG). eexists. split; [|exact Hf']. cbn [exec_tac x]. exists (map rho outs). split; [|split; [by rewrite map_length, seq_length | done]].
        rewrite (Hsem HK), (map_agree _ _ _ _ _ Ha Hops). unfold holds in Hh. inversion Hh; subst. done.
    - intros HK G HG σ k σf Hf. apply (Hstep G HG) in Hf as (σ1 & (xs & Hx & Hl & ->) & Hf). rewrite seq_length in Hl. exists (upd_all (seq (nv s) n) xs σ), k. assert (Hfr : frame (nv s) σ (upd_all (seq (nv s) n) xs σ)) by (intros v Hv; by apply upd_all_seq_old).
      split; [done|]. split; [done|]. split; [done|]. intros rho Ha. unfold holds. constructor.
      assert (Ha0 : agree e σ rho). { eapply agree_frame; [exact Hb | exact Hfr|]. intros y v Hv. apply Ha. by apply (insert_vars_sub _ _ _ _ He). }
      cbn [nins nouts]. rewrite <-(map_agree _ _ _ _ _ Ha0 Hops), <-(Hsem HK), Hx. f_equal. symmetry. apply map_eq_lookup; [done|]. intros j y Hj.
      assert (Hjn : j < n) by (by eapply lookup_lt_Some). destruct (lookup_lt_is_Some_2 xs j) as [z Hz]; [lia|]. rewrite Hz. f_equal. specialize (Hin j y Hj). assert (Hs : seq (nv s) n !! j = Some (nv s + j)) by (by apply lookup_seq). rewrite Hs in Hin.
      rewrite <-(Ha _ _ Hin). symmetry. by apply upd_all_seq_new.
  Qed.

  (** what is known of a subregion's blocks: b is its first block, lb its last *)
  Definition sub_ok (xb : nat) (vs : list nat) (s s' : state) (r : region) (b lb : nat) (res : list nat) : Prop :=
    exists er a e' t, insert_vars (tail (rargs r)) vs ∅ = Some er /\ ok a /\ correct er a e' t (all_outs (rnodes r)) (fun rho => hold rho (rnodes r)) /\ mapM (fun x => e' !! x) (rres r) = Some res /\
      nb s <= b /\ cur a = S b /\ nb a = S (S b) /\ lb = nb t /\ S lb <= nb s' /\ nv s <= nv a /\ nv t <= nv s' /\
      bl a !! cur a = Some (Block [] []) /\ bl s' !! b = Some (Block [] [cur a]) /\ (forall n, cur a <= n < nb t -> n <> cur t -> bl s' !! n = bl t !! n) /\
      (exists c, bl t !! cur t = Some (Block c []) /\ bl s' !! cur t = Some (Block c [lb])) /\ bl s' !! lb = Some (Block [] [xb]).
  Definition region_correct (f : region -> gmap nat nat -> state -> option (gmap nat nat * state)) (r : region) : Prop :=
    forall e s e' s', f r e s = Some (e', s') -> ok s -> bounded e (nv s) -> exists t, s' = next_block t /\ correct e (next_block s) e' t (all_outs (rnodes r)) (fun rho => hold rho (rnodes r)).
  Lemma convert_subs_ok f eb xb vs l : (forall r, r ∈ l -> region_correct f r) -> forall s rs s', convert_subs f eb xb vs l s = Some (rs, s') ->
    dom_ok s -> 1 < eb < nb s -> 1 < xb < nb s -> (forall v, v ∈ vs -> v < nv s) ->
    nb s <= nb s' /\ nv s <= nv s' /\ dom_ok s' /\ (forall n, n < nb s -> n <> eb -> bl s' !! n = bl s !! n) /\ length rs = length l /\ NoDup (map fst rs) /\ (forall lb, lb ∈ map fst rs -> nb s <= lb) /\ (forall r, r ∈ rs -> forall v, v ∈ r.2 -> v < nv s') /\
    exists bs, length bs = length l /\ (forall b0, bl s !! eb = Some b0 -> bl s' !! eb = Some (Block (code b0) (succ b0 ++ bs))) /\
      forall i r b lb res, l !! i = Some r -> bs !! i = Some b -> rs !! i = Some (lb, res) -> sub_ok xb vs s s' r b lb res.
  Proof.
    induction l as [|r l IH]; intros Hf s rs s' H Hd Heb Hxb Hvs.
    - injection H as <- <-. split; [lia|]. split; [lia|]. split; [done|]. split; [done|]. split; [done|]. split; [constructor|]. split; [by intros lb ?%elem_of_nil|]. split; [by intros x ?%elem_of_nil|]. exists []. split; [done|]. split; [|done]. intros [c ss] ->. cbn. by rewrite app_nil_r.
    - cbn [convert_subs] in H. fold (convert_subs f eb xb vs) in H. apply bind_Some in H as (er & Her & H). set (b := nb s) in *. set (s0 := set_cur b (add_edge eb b (create_block s))) in *. apply bind_Some in H as ([e1 s1] & Hr & H). apply bind_Some in H as (res & Hres & H). set (s2 := add_edge (cur s1) xb s1) in *. apply bind_Some in H as ([rs' s''] & Hs & [= <- <-]).
      assert (Hbl0 : forall n, bl s0 !! n = if decide (n = b) then Some (Block [] []) else if decide (n = eb) then (fun c => Block (code c) (succ c ++ [b])) <$> bl s !! n else bl s !! n).
      { intros n. cbn. case_decide as E1; [subst n; rewrite lookup_alter_ne by (unfold b; lia); by rewrite lookup_insert|]. case_decide as E2; [subst n; rewrite lookup_alter, lookup_insert_ne by (unfold b; lia); done|]. rewrite lookup_alter_ne, lookup_insert_ne by done. done. }
      destruct Hd as [Hd1 Hd2]. assert (Hk0 : ok s0).
      { split; [cbn; lia| |exists []; rewrite Hbl0; cbn; by rewrite decide_True]. intros n. rewrite Hbl0. pose proof (Hd2 n) as Hd. cbn [nb s0 set_cur add_edge create_block]. case_decide as E1; [subst n; unfold b; split; [lia | eauto]|]. fold b in Hd |- *. case_decide as E2; [rewrite fmap_is_Some|]; rewrite Hd; lia. }
      assert (Hb0 : bounded er (nv s0)). { intros x v Hx. apply (insert_vars_cases _ _ _ _ _ _ Her) in Hx as [Hx|(j & _ & Hj)]; [by rewrite lookup_empty in Hx|]. apply Hvs. by eapply elem_of_list_lookup_2. }
      destruct (Hf r ltac:(by left) _ _ _ _ Hr Hk0 Hb0) as (t & -> & Ht). set (a := next_block s0) in *. assert (Hka : ok a) by (by apply next_block_ok). pose proof (c_ok _ _ _ _ _ _ _ _ _ Ht) as Hkt. pose proof (c_grow _ _ _ _ _ _ _ _ _ Ht) as Hg. pose proof (ok_cur_lt _ Hkt) as Hct. pose proof (g_nb _ _ Hg) as Hgn. pose proof (g_nv _ _ Hg) as Hgv. pose proof (g_cur _ _ Hg) as Hgc.
      change (nb a) with (S (S b)) in Hgn, Hgc. change (nv a) with (nv s) in Hgv. change (cur a) with (S b) in Hgc.
      assert (Hcur2 : cur (next_block t) = nb t) by done. destruct (ok_cur t Hkt) as [c Hc].
      assert (Hbl2 : forall n, bl s2 !! n = if decide (n = nb t) then Some (Block [] [xb]) else if decide (n = cur t) then Some (Block c [nb t]) else bl t !! n).
      { intros n. unfold s2, add_edge. cbn [bl]. rewrite Hcur2. case_decide as E1; [subst n; rewrite lookup_alter, next_block_bl by done; by rewrite decide_True|]. rewrite lookup_alter_ne by done. rewrite next_block_bl by done. rewrite decide_False by done. case_decide as E2; [subst n; by rewrite Hc | done]. }
      assert (Hd' : dom_ok s2). { split; [cbn; lia|]. intros n. rewrite Hbl2. pose proof (ok_dom t Hkt n) as Hd. cbn [nb s2 add_edge next_block set_cur create_block]. case_decide as E1; [subst n; split; [lia | eauto]|]. case_decide as E2; [subst n; split; [lia | eauto]|]. rewrite Hd. lia. }
      assert (Hnb2 : nb s2 = S (nb t)) by done. assert (Hnv2 : nv s2 = nv t) by done.
      destruct (IH ltac:(intros r' Hr'; apply Hf; by right) s2 rs' s'' Hs Hd') as (K1 & K2 & K3 & K4 & K5 & K6 & K7 & K8 & bs & K9 & K10 & K11); [lia | lia | intros v Hv; specialize (Hvs v Hv); lia|].
      assert (Hold : forall n, n < b -> n <> eb -> bl s2 !! n = bl s !! n).
      { intros n Hn Hne. rewrite Hbl2, decide_False, decide_False by lia. rewrite (g_old _ _ Hg) by (change (nb a) with (S (S b)); change (cur a) with (S b); lia). unfold a. rewrite next_block_bl by done. rewrite decide_False, decide_False by (cbn; lia). rewrite Hbl0, decide_False, decide_False by (done || lia). done. }
      assert (Hbb : bl s2 !! b = Some (Block [] [S b])). { rewrite Hbl2, decide_False, decide_False by lia. rewrite (g_old _ _ Hg) by (change (nb a) with (S (S b)); change (cur a) with (S b); lia). unfold a. rewrite next_block_bl by done. rewrite decide_False, decide_True by (done || (cbn; lia)). rewrite Hbl0, decide_True by done. done. }
      split; [lia|]. split; [lia|]. split; [done|]. split; [intros n Hn Hne; fold b in Hn; rewrite K4 by lia; by apply Hold|]. split; [cbn; lia|]. split; [|split; [|split]].
      + cbn. constructor; [|done]. intros Hin%K7. lia.
      + cbn. intros lb [->|Hlb]%elem_of_cons; [lia|]. specialize (K7 _ Hlb). lia.
      + intros x [->|Hx]%elem_of_cons; [|by apply K8]. cbn. intros v Hv. destruct (mapM_elem _ _ _ _ Hres Hv) as (y & _ & Hy). pose proof (c_bound _ _ _ _ _ _ _ _ _ Ht y v Hy). lia.
      + exists (b :: bs). split; [cbn; lia|]. split.
        * intros b0 Hb0'. assert (E : bl s2 !! eb = Some (Block (code b0) (succ b0 ++ [b]))).
          { rewrite Hbl2, decide_False, decide_False by lia. rewrite (g_old _ _ Hg) by (change (nb a) with (S (S b)); change (cur a) with (S b); lia). unfold a. rewrite next_block_bl by done. rewrite decide_False, decide_False by (cbn; lia). rewrite Hbl0, decide_False, decide_True by (done || lia). by rewrite Hb0'. }
          rewrite (K10 _ E). cbn [code succ]. by rewrite <-(assoc_L (++)).
        * intros [|i] r' b' lb res' Hl Hbs Hrs; cbn in Hl, Hbs, Hrs.
          -- injection Hl as <-. injection Hbs as <-. injection Hrs as <- <-. exists er, a, e1, t. split; [done|]. split; [done|]. split; [done|]. split; [done|]. split; [done|]. split; [done|]. split; [done|]. split; [done|]. split; [change (cur (next_block t)) with (nb t); lia|]. split; [done|]. split; [lia|].
             split; [unfold a; rewrite next_block_bl by done; by rewrite decide_True|]. split; [rewrite K4 by lia; done|]. split; [|split].
             ++ change (cur a) with (S b). intros n Hn Hne. rewrite K4 by lia. rewrite Hbl2, decide_False, decide_False by lia. done.
             ++ exists c. split; [done|]. rewrite K4 by lia. rewrite Hbl2, decide_False, decide_True by lia. done.
             ++ change (cur (next_block t)) with (nb t). rewrite K4 by lia. rewrite Hbl2, decide_True by lia. done.
          -- destruct (K11 _ _ _ _ _ Hl Hbs Hrs) as (er' & a' & e' & t' & L1 & L2 & L3 & L4 & L5 & L6 & L7 & L8 & L9 & L10 & L11 & L12 & L13 & L14 & L15 & L16). exists er', a', e', t'. repeat (split; [done || lia|]). done.
  Qed.

  (** the outputs *)
  Lemma gamma_outs_ok xb rs outs : forall i e s e' s' c ss, gamma_outs xb rs i outs e s = Some (e', s') -> bl s !! xb = Some (Block c ss) ->
    exists ps, bl s' = <[xb := Block (c ++ map phi ps) ss]> (bl s) /\ cur s' = cur s /\ nb s' = nb s /\ nv s' = nv s + length ps /\ map fst ps = seq (nv s) (length ps) /\ (forall p, p ∈ ps -> map fst p.2 = map fst rs) /\
      (forall x v, e !! x = Some v -> e' !! x = Some v) /\ (forall x v, e' !! x = Some v -> e !! x = Some v \/ x ∈ outs) /\
      forall k lb res, NoDup (map fst rs) -> rs !! k = Some (lb, res) -> exists us, mapM (fun q => operand lb q.2) ps = Some us /\ (forall u, u ∈ us -> u ∈ res) /\ length us = length ps /\
        forall N, N <= nv s -> (forall r, r ∈ rs -> forall v, v ∈ r.2 -> v < N) -> forall σ : nat -> val, let σ' := upd_all (fst <$> ps) (map σ us) σ in
          forall j x, outs !! j = Some x -> exists w u, e' !! x = Some w /\ w < nv s' /\ res !! (i + j) = Some u /\ σ' w = σ u.
  Proof.
    induction outs as [|x outs IH]; intros i e s e' s' c ss H Hxb; cbn [gamma_outs] in H.
    - injection H as <- <-. exists []. cbn [map app length]. rewrite app_nil_r, insert_id by done. split; [done|]. split; [done|]. split; [done|]. split; [lia|]. split; [done|]. split; [by intros p ?%elem_of_nil|]. split; [done|]. split; [by left|]. intros k lb res Hn Hk. exists []. split; [done|]. split; [by intros u ?%elem_of_nil|]. done.
    - apply bind_Some in H as (vs & Hvs & H). apply bind_Some in H as (v0 & Hv0 & H). destruct (mapM_lookup _ _ _ Hvs) as [Hlvs Hvs']. destruct (forallb _ vs) eqn:Ei.
      + apply bind_Some in H as (e1 & He & H). destruct (IH _ _ _ _ _ _ _ H Hxb) as (ps & A1 & A2 & A3 & A4 & A5 & A5' & A6 & A7 & A8). exists ps. split; [done|]. split; [done|]. split; [done|]. split; [done|]. split; [done|]. split; [done|]. destruct (insert_vars_inv _ _ _ _ He) as (_ & _ & _ & _ & Hin). specialize (Hin 0 x eq_refl). cbn in Hin. split; [|split].
        * intros y v Hy. apply A6. by apply (insert_vars_sub _ _ _ _ He).
        * intros y v Hy. destruct (A7 y v Hy) as [Hy'|]; [|right; by right]. apply (insert_vars_cases _ _ _ _ _ _ He) in Hy' as [Hy'|(j & Hj & _)]; [by left|]. right. destruct j; [injection Hj as ->; by left | done].
        * intros k lb res Hn Hk. destruct (A8 k lb res Hn Hk) as (us & B1 & B2 & B4 & B3). exists us. split; [done|]. split; [done|]. split; [done|]. intros N HN Hr σ σ' [|j] y Hj; cbn in Hj.
          -- injection Hj as <-. specialize (Hvs' k _ Hk). cbn in Hvs'. destruct (lookup_lt_is_Some_2 vs k) as [v Hv]; [rewrite <-Hlvs; by eapply lookup_lt_Some|]. rewrite Hv in Hvs'.
             rewrite forallb_forall in Ei. assert (Hin' : v ∈ vs) by (by eapply elem_of_list_lookup_2). apply elem_of_list_In in Hin'. specialize (Ei _ Hin'). apply bool_decide_eq_true in Ei. subst v. exists v0, v0. rewrite Nat.add_0_r.
             assert (Hlt : v0 < N). { apply (Hr (lb, res)); [by eapply elem_of_list_lookup_2 | by eapply elem_of_list_lookup_2]. } split; [by apply A6|]. split; [lia|]. split; [done|]. unfold σ'. change (fst <$> ps) with (map fst ps). rewrite A5. apply upd_all_seq_old. lia.
          -- destruct (B3 N HN Hr σ j y Hj) as (w & u & C1 & C2 & C3 & C4). exists w, u. split; [done|]. split; [done|]. split; [|done]. by replace (i + S j) with (S i + j) by lia.
      + apply bind_Some in H as (e1 & He & H). set (p := (nv s, zip (map fst rs) vs)). destruct (IH _ _ _ _ _ (c ++ [phi p]) ss H) as (ps & A1 & A2 & A3 & A4 & A5 & A5' & A6 & A7 & A8); [cbn; by rewrite lookup_alter, Hxb|]. cbn [bl cur nb nv append] in *. exists (p :: ps).
        destruct (insert_vars_inv _ _ _ _ He) as (_ & _ & _ & _ & Hin). specialize (Hin 0 x eq_refl). cbn in Hin. split; [|split; [exact A2|split; [exact A3|split; [rewrite A4; cbn; lia|split; [|split; [|split; [|split]]]]]]].
        * rewrite A1. rewrite <-(assoc_L (++)). cbn [map app]. apply map_eq. intros n. destruct (decide (n = xb)) as [->|Hn]; [by rewrite !lookup_insert|]. rewrite !lookup_insert_ne by done. by rewrite lookup_alter_ne.
        * cbn. f_equal. by rewrite A5.
        * intros q [->|Hq]%elem_of_cons; [|by apply A5']. cbn. change (map fst (zip (map fst rs) vs)) with ((zip (map fst rs) vs).*1). apply fst_zip. rewrite map_length. lia.
        * intros y v Hy. apply A6. by apply (insert_vars_sub _ _ _ _ He).
        * intros y v Hy. destruct (A7 y v Hy) as [Hy'|]; [|right; by right]. apply (insert_vars_cases _ _ _ _ _ _ He) in Hy' as [Hy'|(j & Hj & _)]; [by left|]. right. destruct j; [injection Hj as ->; by left | done].
        * intros k lb res Hn Hk. destruct (A8 k lb res Hn Hk) as (us & B1 & B2 & B4 & B3). specialize (Hvs' k _ Hk). cbn in Hvs'. destruct (lookup_lt_is_Some_2 vs k) as [v Hv]; [rewrite <-Hlvs; by eapply lookup_lt_Some|]. rewrite Hv in Hvs'.
          assert (Ho : operand lb (zip (map fst rs) vs) = Some v).
          { clear -Hk Hv Hn Hlvs. unfold operand. revert k vs Hk Hv Hlvs. induction rs as [|[l0 r0] rs IH]; intros k [|v0 vs] Hk Hv Hlvs; try done. cbn in Hn. apply NoDup_cons in Hn as [Hn1 Hn2]. destruct k as [|k]; cbn in Hk, Hv.
            - injection Hk as -> ->. injection Hv as ->. cbn. by rewrite decide_True.
            - cbn. rewrite decide_False; [apply (IH Hn2 k); [done | done | by injection Hlvs]|]. intros ->. apply Hn1. change (map fst rs) with (fst <$> rs). apply elem_of_list_fmap. exists (lb, res). split; [done|]. by eapply elem_of_list_lookup_2. }
          exists (v :: us). split; [|split; [|split; [cbn; by rewrite B4|]]].
          -- cbn. rewrite Ho. cbn. by rewrite B1.
          -- intros u [->|Hu]%elem_of_cons; [by eapply elem_of_list_lookup_2 | by apply B2].
          -- intros N HN Hr σ. assert (Hlt : forall u, u ∈ res -> u < N) by (intros u; apply (Hr (lb, res)); by eapply elem_of_list_lookup_2).
             set (σ1 := upd (nv s) (σ v) σ). assert (E1 : forall u, u ∈ res -> σ1 u = σ u) by (intros u Hu; specialize (Hlt u Hu); unfold σ1, upd; rewrite decide_False by lia; done).
             assert (Ems : map σ us = map σ1 us) by (apply map_ext_in; intros u Hu%elem_of_list_In; symmetry; apply E1, B2, Hu).
             cbv zeta. change (fst <$> p :: ps) with (nv s :: (fst <$> ps)). cbn [map]. rewrite upd_all_cons. fold σ1. rewrite Ems. intros [|j] y Hj; cbn in Hj.
             ++ injection Hj as <-. exists (nv s), v. split; [by apply A6|]. split; [lia|]. split; [by rewrite Nat.add_0_r|]. change (fst <$> ps) with (map fst ps). rewrite A5. rewrite upd_all_seq_old by lia. unfold σ1, upd. by rewrite decide_True.
             ++ destruct (B3 N ltac:(lia) Hr σ1 j y Hj) as (w & u & C1 & C2 & C3 & C4). exists w, u. split; [done|]. split; [done|]. split; [by replace (i + S j) with (S i + j) by lia|]. rewrite C4. apply E1. by eapply elem_of_list_lookup_2.
  Qed.
End Sem.
