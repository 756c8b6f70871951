(** Running a part of the graph. *)
From stdpp Require Import base list gmap.
From Coq Require Import Lia.
From Verif.Construct Require Import Model Spec.
From Verif.Cfg Require Import Model Spec ProofsBase.
From Verif.LocalRegion Require Import Model Spec Facts.
From Verif.Destruct Require Import Model Spec.

Section TreeInd.
  Context (P : node -> Prop) (Q : region -> Prop).
  Hypothesis HS : forall o ins outs, P (Node (KSimple o) ins outs).
  Hypothesis HG : forall subs ins outs, Forall Q subs -> P (Node (KGamma subs) ins outs).
  Hypothesis HT : forall b ins outs, Q b -> P (Node (KTheta b) ins outs).
  Hypothesis HR : forall args ns res, Forall P ns -> Q (Region args ns res).
  Fixpoint all_node (n : node) : P n :=
    match n with Node k ins outs =>
      match k return P (Node k ins outs) with
      | KSimple o => HS o ins outs
      | KGamma subs => HG subs ins outs ((fix go l : Forall Q l := match l with [] => Forall_nil_2 _ | r :: l => Forall_cons_2 _ _ _ (all_region r) (go l) end) subs)
      | KTheta b => HT b ins outs (all_region b)
      end
    end
  with all_region (r : region) : Q r :=
    match r with Region args ns res => HR args ns res ((fix go l : Forall P l := match l with [] => Forall_nil_2 _ | n :: l => Forall_cons_2 _ _ _ (all_node n) (go l) end) ns) end.
End TreeInd.

Notation vars := (gmap nat nat) (only parsing).
Notation store := (nat -> val) (only parsing).
Definition phi (p : nat * list (nat * nat)) : instr := Phi p.1 p.2.
Lemma split_phis_phi ps ts : split_phis (map phi ps ++ (Tac <$> ts)) = (ps, Tac <$> ts).
Proof. induction ps as [|[x ops] ps IH]; cbn; [by destruct ts|]. by rewrite IH. Qed.
Lemma plain_tacs ts : plain (Tac <$> ts) = Some ts.
Proof. unfold plain. induction ts as [|t ts IH]; [done|]. cbn. unfold plain in IH. change (list_fmap tac instr Tac ts) with (Tac <$> ts). by rewrite IH. Qed.

Lemma tacs_inj (ts ts' : list tac) : Tac <$> ts = Tac <$> ts' -> ts = ts'.
Proof. intros H. pose proof (plain_tacs ts) as E. rewrite H, plain_tacs in E. by injection E. Qed.
(** there is no variable from n on in the map *)
Definition bounded (e : vars) (n : nat) : Prop := forall x v, e !! x = Some v -> v < n.
Definition agree (e : vars) (σ rho : store) : Prop := forall x v, e !! x = Some v -> σ v = rho x.
Definition frame (n : nat) (σ σ' : store) : Prop := forall v, v < n -> σ' v = σ v.
Lemma frame_refl n σ : frame n σ σ.
Proof. done. Qed.
Lemma frame_trans n m σ1 σ2 σ3 : n <= m -> frame n σ1 σ2 -> frame m σ2 σ3 -> frame n σ1 σ3.
Proof. intros Hnm H1 H2 v Hv. rewrite H2 by lia. by apply H1. Qed.
Lemma agree_frame e n σ σ' rho : bounded e n -> frame n σ σ' -> agree e σ rho <-> agree e σ' rho.
Proof. intros Hb Hf. split; intros Ha x v Hx; [rewrite Hf by (by eapply Hb) | rewrite <-Hf by (by eapply Hb)]; by apply Ha. Qed.
Lemma bounded_mono e n m : bounded e n -> n <= m -> bounded e m.
Proof. intros H Hl x v Hx. specialize (H x v Hx). lia. Qed.

Lemma insert_vars_inv xs : forall vs e e', insert_vars xs vs e = Some e' ->
  length xs = length vs /\ NoDup xs /\ (forall x, x ∈ xs -> e !! x = None) /\ (forall x, x ∉ xs -> e' !! x = e !! x) /\ forall j x, xs !! j = Some x -> e' !! x = vs !! j.
Proof.
  induction xs as [|y xs IH]; intros [|v vs] e e' H; cbn in H; try done.
  - injection H as <-. split; [done|]. split; [by constructor|]. split; [by intros x ?%elem_of_nil|]. split; [done|]. intros j x Hj. done.
  - destruct (e !! y) eqn:E; [done|]. destruct (IH _ _ _ H) as (H1 & H2 & H3 & H4 & H5).
    assert (Hy : y ∉ xs). { intros Hin. specialize (H3 y Hin). by rewrite lookup_insert in H3. }
    split; [cbn; lia|]. split; [by constructor|]. split; [|split].
    + intros x [->|Hx]%elem_of_cons; [done|]. specialize (H3 x Hx). rewrite lookup_insert_ne in H3; [done|]. by intros ->.
    + intros x Hx. apply not_elem_of_cons in Hx as [Hx1 Hx2]. rewrite H4 by done. by rewrite lookup_insert_ne.
    + intros [|j] x Hj; cbn in Hj |- *; [|by apply H5]. injection Hj as ->. rewrite H4 by done. by rewrite lookup_insert.
Qed.
Lemma insert_vars_some xs : forall vs e, length xs = length vs -> NoDup xs -> (forall x, x ∈ xs -> e !! x = None) -> is_Some (insert_vars xs vs e).
Proof.
  induction xs as [|y xs IH]; intros [|v vs] e Hl Hn He; cbn in Hl |- *; try done. rewrite (He y) by (by left). apply NoDup_cons in Hn as [Hy Hn]. apply IH; [lia | done|]. intros x Hx. rewrite lookup_insert_ne by (intros ->; done). apply He. by right.
Qed.
Lemma insert_vars_sub xs vs (e e' : vars) : insert_vars xs vs e = Some e' -> forall x v, e !! x = Some v -> e' !! x = Some v.
Proof.
  intros H x v Hx. destruct (insert_vars_inv _ _ _ _ H) as (_ & _ & H3 & H4 & _). rewrite H4; [done|]. intros Hin. by rewrite (H3 x Hin) in Hx.
Qed.
Lemma insert_vars_cases xs vs (e e' : vars) x v : insert_vars xs vs e = Some e' -> e' !! x = Some v -> e !! x = Some v \/ exists j, xs !! j = Some x /\ vs !! j = Some v.
Proof.
  intros H Hx. destruct (insert_vars_inv _ _ _ _ H) as (_ & _ & _ & H4 & H5). destruct (decide (x ∈ xs)) as [Hin|Hout].
  - right. apply elem_of_list_lookup in Hin as [j Hj]. exists j. split; [done|]. by rewrite <-(H5 _ _ Hj).
  - left. by rewrite <-(H4 x Hout).
Qed.
Lemma mapM_lookup {A B} (f : B -> option A) l k : mapM f l = Some k -> length l = length k /\ forall j x, l !! j = Some x -> f x = k !! j.
Proof.
  revert k. induction l as [|x l IH]; intros k H; cbn in H; [injection H as <-; split; [done|]; by intros j x|]. apply bind_Some in H as (v & Hv & H). apply bind_Some in H as (k' & Hk & [= <-]). destruct (IH _ Hk) as [H1 H2]. split; [cbn; lia|].
  intros [|j] y Hj; cbn in Hj |- *; [by injection Hj as <- | by apply H2].
Qed.
(** the values of names through their variables *)
Lemma map_agree (e : vars) σ rho xs vs : agree e σ rho -> mapM (fun x => e !! x) xs = Some vs -> map σ vs = map rho xs.
Proof.
  intros Ha. revert vs. induction xs as [|x xs IH]; intros vs H; cbn in H; [by injection H as <-|]. apply bind_Some in H as (v & Hv & H). apply bind_Some in H as (k & Hk & [= <-]). cbn. rewrite (Ha _ _ Hv). f_equal. by apply IH.
Qed.
Lemma mapM_elem (e : vars) xs vs v : mapM (fun x => e !! x) xs = Some vs -> v ∈ vs -> exists x, x ∈ xs /\ e !! x = Some v.
Proof.
  revert vs. induction xs as [|x xs IH]; intros vs H Hv; cbn in H; [injection H as <-; by apply elem_of_nil in Hv|]. apply bind_Some in H as (w & Hw & H). apply bind_Some in H as (k & Hk & [= <-]). apply elem_of_cons in Hv as [->|Hv]; [exists x; split; [by left | done]|]. destruct (IH _ Hk Hv) as (y & Hy & Hvy). exists y. split; [by right | done].
Qed.

Section Sem.
  Context (other : nat -> list val -> option (list val)) (content : val -> val) (sem : nat -> list val -> option (list val)) (truth : val -> bool) (K : Prop).
  Notation exec_block := (exec_block sem truth).
  Notation exec_code := (exec_code sem truth).
  Notation goes := (goes as_ctl).
  (** control is at the node n, coming from prev; the exit is reached after k blocks *)
  Inductive runsN (G : gmap nat block) : nat -> nat -> nat -> store -> store -> Prop :=
    | rn_exit prev σ : runsN G 0 prev exit σ σ
    | rn_block k prev n b σ σ1 m σ' : G !! n = Some b -> exec_code prev (code b) σ σ1 -> goes b σ1 m -> runsN G k n m σ1 σ' -> runsN G (S k) prev n σ σ'.
  Lemma runsN_iff g prev n σ σ' : Cfg.Spec.runs as_ctl sem truth g prev n σ σ' <-> exists k, runsN (blocks g) k prev n σ σ'.
  Proof.
    split.
    - induction 1 as [prev σ|prev n b σ σ1 m σ' Hb Hc Hg Hr [k IH]]; [exists 0; constructor|]. exists (S k). by econstructor.
    - intros [k H]. induction H as [prev σ|k prev n b σ σ1 m σ' Hb Hc Hg Hr IH]; [constructor|]. by econstructor.
  Qed.
  (** control has come to the end of what there is of the current block *)
  Definition from (G : gmap nat block) (s : state) (k : nat) (σ σf : store) : Prop :=
    exists c ts ss σ1 m, bl s !! cur s = Some (Block c []) /\ G !! cur s = Some (Block (c ++ (Tac <$> ts)) ss) /\ exec_block ts σ σ1 /\ goes (Block (c ++ (Tac <$> ts)) ss) σ1 m /\ runsN G k (cur s) m σ1 σf.
  Lemma enter (G : gmap nat block) n ps ts ss p k σ σf : n <> exit -> G !! n = Some (Block (map phi ps ++ (Tac <$> ts)) ss) ->
    runsN G k p n σ σf <-> exists k' us σ1 m, k = S k' /\ mapM (fun q => operand p q.2) ps = Some us /\ exec_block ts (upd_all (fst <$> ps) (map σ us) σ) σ1 /\ goes (Block (map phi ps ++ (Tac <$> ts)) ss) σ1 m /\ runsN G k' n m σ1 σf.
  Proof.
    intros Hn HG. split.
    - intros H. inversion H as [|k' prev n' b σ0 σ1 m σ' Hb Hc Hg Hr]; subst; [done|]. rewrite HG in Hb. injection Hb as <-. cbn [code] in Hc. destruct Hc as (us & ts' & H1 & H2 & H3). rewrite split_phis_phi in H1, H2, H3. cbn [fst snd] in *. rewrite plain_tacs in H2. injection H2 as <-. exists k', us, σ1, m. done.
    - intros (k' & us & σ1 & m & -> & H1 & H2 & H3 & H4). econstructor; [exact HG| |exact H3 | exact H4]. exists us, ts. cbn [code]. rewrite split_phis_phi. cbn [fst snd]. rewrite plain_tacs. done.
  Qed.

  (** blocks have the numbers from 2 on; the current one has no successors yet *)
  Record ok (s : state) : Prop := Ok { ok_low : 1 < nb s; ok_dom : forall n, is_Some (bl s !! n) <-> 1 < n < nb s; ok_cur : exists c, bl s !! cur s = Some (Block c []) }.
  Lemma ok_cur_lt s : ok s -> 1 < cur s < nb s.
  Proof. intros H. apply (ok_dom s H). destruct (ok_cur s H) as [c ->]. eauto. Qed.
  Record grow (s s' : state) : Prop := Grow {
    g_nb : nb s <= nb s'; g_nv : nv s <= nv s';
    g_old : forall n, n < nb s -> n <> cur s -> bl s' !! n = bl s !! n;
    g_cur : cur s' = cur s \/ nb s <= cur s';
    g_ext : forall c, bl s !! cur s = Some (Block c []) -> exists ts ss, bl s' !! cur s = Some (Block (c ++ (Tac <$> ts)) ss)
  }.
  Lemma grow_refl s : grow s s.
  Proof. split; [lia | lia | done | by left|]. intros c Hc. exists [], []. cbn. by rewrite app_nil_r. Qed.
  Lemma grow_trans s s' s'' : ok s -> ok s' -> grow s s' -> grow s' s'' -> grow s s''.
  Proof.
    intros Hk Hk' [A1 A2 A3 A4 A5] [B1 B2 B3 B4 B5]. pose proof (ok_cur_lt _ Hk). split; [lia | lia| | |].
    - intros n Hn Hc. rewrite B3; [by apply A3 | lia|]. lia.
    - destruct A4 as [A4|A4], B4 as [B4|B4]; [left; congruence | right; lia | right; lia | right; lia].
    - intros c Hc. destruct (decide (cur s' = cur s)) as [E|E].
      + destruct (A5 c Hc) as (ts & ss & H1). destruct (ok_cur s' Hk') as [c' Hc']. rewrite E in Hc'. rewrite H1 in Hc'. injection Hc' as <- ->.
        rewrite <-E in H1. destruct (B5 _ H1) as (ts' & ss' & H2). exists (ts ++ ts'), ss'. rewrite <-E, H2. by rewrite fmap_app, (assoc_L (++)).
      + rewrite B3; [by apply A5 | lia | done].
  Qed.
  (** the final graph has what was made on the way from s to s' *)
  Record fits (G : gmap nat block) (s s' : state) : Prop := Fits {
    f_blocks : forall n, nb s <= n < nb s' \/ n = cur s -> n <> cur s' -> G !! n = bl s' !! n;
    f_cur : exists c ts ss, bl s' !! cur s' = Some (Block c []) /\ G !! cur s' = Some (Block (c ++ (Tac <$> ts)) ss)
  }.
  Lemma fits_split G s s' s'' : ok s -> ok s' -> grow s s' -> grow s' s'' -> fits G s s'' -> fits G s s' /\ fits G s' s''.
  Proof.
    intros Hk Hk' A B [F1 (c & ts & ss & F2 & F3)]. pose proof (ok_cur_lt _ Hk). pose proof (ok_cur_lt _ Hk'). pose proof (g_nb _ _ A). pose proof (g_nb _ _ B). pose proof (g_cur _ _ A) as A4. pose proof (g_cur _ _ B) as B4. split; split.
    - intros n Hn Hc. rewrite F1; [apply (g_old _ _ B); [lia | done] | lia | lia].
    - destruct (ok_cur s' Hk') as [c' Hc']. destruct (g_ext _ _ B _ Hc') as (ts1 & ss1 & H3). destruct (decide (cur s'' = cur s')) as [E|E].
      + rewrite E in F2, F3. rewrite H3 in F2. injection F2 as <- ->. exists c', (ts1 ++ ts), ss. split; [done|]. by rewrite fmap_app, (assoc_L (++)).
      + exists c', ts1, ss1. split; [done|]. rewrite F1; [done | lia | done].
    - intros n Hn Hc. apply F1; [lia | done].
    - by exists c, ts, ss.
  Qed.

  (** Going from s to s' has the effect that H says about the values of names. [D]: the names that get variables *)
  Record correct (e : vars) (s : state) (e' : vars) (s' : state) (D : list oid) (H : store -> Prop) : Prop := Correct {
    c_grow : grow s s'; c_ok : ok s'; c_bound : bounded e' (nv s');
    c_sub : forall x v, e !! x = Some v -> e' !! x = Some v;
    c_dom : forall x v, e' !! x = Some v -> e !! x = Some v \/ x ∈ D;
    c_fwd : K -> forall G, fits G s s' -> forall rho σ, H rho -> agree e σ rho -> exists σ', frame (nv s) σ σ' /\ agree e' σ' rho /\ forall k σf, from G s' k σ' σf -> exists k', from G s k' σ σf;
    c_bwd : K -> forall G, fits G s s' -> forall σ k σf, from G s k σ σf -> exists σ' k', k' <= k /\ frame (nv s) σ σ' /\ from G s' k' σ' σf /\ forall rho, agree e' σ' rho -> H rho
  }.
  Lemma correct_refl e s : ok s -> bounded e (nv s) -> correct e s e s [] (fun _ => True).
  Proof.
    intros Hk Hb. split; [apply grow_refl | done | done | done | by left| |].
    - intros HK G HG rho σ _ Ha. exists σ. split; [done|]. split; [done|]. eauto.
    - intros HK G HG σ k σf Hf. exists σ, k. done.
  Qed.
  Lemma correct_seq e s e1 s1 e' s' D1 D2 (H1 H2 : store -> Prop) : ok s -> correct e s e1 s1 D1 H1 -> correct e1 s1 e' s' D2 H2 -> correct e s e' s' (D1 ++ D2) (fun rho => H1 rho /\ H2 rho).
  Proof.
    intros Hk A B. pose proof (g_nv _ _ (c_grow _ _ _ _ _ _ A)). split.
    - eapply grow_trans; [done | exact (c_ok _ _ _ _ _ _ A) | exact (c_grow _ _ _ _ _ _ A) | exact (c_grow _ _ _ _ _ _ B)].
    - exact (c_ok _ _ _ _ _ _ B).
    - exact (c_bound _ _ _ _ _ _ B).
    - intros x v Hx. apply (c_sub _ _ _ _ _ _ B). by apply (c_sub _ _ _ _ _ _ A).
    - intros x v Hx. rewrite elem_of_app. destruct (c_dom _ _ _ _ _ _ B _ _ Hx) as [Hx'|]; [|tauto]. destruct (c_dom _ _ _ _ _ _ A _ _ Hx'); tauto.
    - intros HK G HG rho σ [Hr1 Hr2] Ha. destruct (fits_split G s s1 s' Hk (c_ok _ _ _ _ _ _ A) (c_grow _ _ _ _ _ _ A) (c_grow _ _ _ _ _ _ B) HG) as [F1 F2].
      destruct (c_fwd _ _ _ _ _ _ A HK G F1 rho σ Hr1 Ha) as (σ1 & K1 & K2 & K3). destruct (c_fwd _ _ _ _ _ _ B HK G F2 rho σ1 Hr2 K2) as (σ2 & L1 & L2 & L3).
      exists σ2. split; [by eapply frame_trans|]. split; [done|]. intros k σf Hf. destruct (L3 _ _ Hf) as (k' & Hf'). by eapply K3.
    - intros HK G HG σ k σf Hf. destruct (fits_split G s s1 s' Hk (c_ok _ _ _ _ _ _ A) (c_grow _ _ _ _ _ _ A) (c_grow _ _ _ _ _ _ B) HG) as [F1 F2].
      destruct (c_bwd _ _ _ _ _ _ A HK G F1 _ _ _ Hf) as (σ1 & k1 & K0 & K1 & K2 & K3). destruct (c_bwd _ _ _ _ _ _ B HK G F2 _ _ _ K2) as (σ2 & k2 & L0 & L1 & L2 & L3).
      exists σ2, k2. split; [lia|]. split; [by eapply frame_trans|]. split; [done|]. intros rho Hrho. split; [|by apply L3]. apply K3.
      eapply agree_frame; [exact (c_bound _ _ _ _ _ _ A) | exact L1|]. intros x v Hx. apply Hrho. by apply (c_sub _ _ _ _ _ _ B).
  Qed.
  Lemma correct_iff e s e' s' D (H1 H2 : store -> Prop) : (forall rho, H1 rho <-> H2 rho) -> correct e s e' s' D H1 -> correct e s e' s' D H2.
  Proof.
    intros E [A1 A2 A3 A4 A5 A6 A7]. split; [done | done | done | done | done| |].
    - intros HK G HG rho σ Hr Ha. apply (A6 HK G HG); [by apply E | done].
    - intros HK G HG σ k σf Hf. destruct (A7 HK G HG _ _ _ Hf) as (σ' & k' & ? & ? & ? & Hx). exists σ', k'. split; [done|]. split; [done|]. split; [done|]. intros rho Hr. apply E. by apply Hx.
  Qed.

  (** the nodes of a region *)
  Lemma convert_nodes_correct f l : (forall n e s e' s', n ∈ l -> f n e s = Some (e', s') -> ok s -> bounded e (nv s) -> correct e s e' s' (nouts n) (fun rho => holds other content rho n)) ->
    forall e s e' s', convert_nodes f l e s = Some (e', s') -> ok s -> bounded e (nv s) -> correct e s e' s' (all_outs l) (fun rho => hold other content rho l).
  Proof.
    induction l as [|n l IH]; intros Hf e s e' s' H Hk Hb.
    - injection H as <- <-. eapply correct_iff; [|by apply correct_refl]. intros rho. split; [|done]. intros _ n Hn. by apply elem_of_nil in Hn.
    - change (convert_nodes f (n :: l) e s) with ('(e, s) ← f n e s; convert_nodes f l e s) in H. apply bind_Some in H as ([e1 s1] & H1 & H2).
      assert (A : correct e s e1 s1 (nouts n) (fun rho => holds other content rho n)) by (apply Hf; [by left | done | done | done]).
      rewrite all_outs_cons. eapply correct_iff; [intros rho; symmetry; apply hold_cons|]. eapply correct_seq; [done | exact A|]. eapply IH; [|done | exact (c_ok _ _ _ _ _ _ A) | exact (c_bound _ _ _ _ _ _ A)]. intros m e2 s2 e3 s3 Hm. apply Hf. by right.
  Qed.

  (** going on to a new block *)
  Lemma next_block_bl s n : ok s -> bl (next_block s) !! n = if decide (n = nb s) then Some (Block [] []) else if decide (n = cur s) then (fun b => Block (code b) (succ b ++ [nb s])) <$> bl s !! n else bl s !! n.
  Proof.
    intros Hk. pose proof (ok_cur_lt _ Hk). unfold next_block, set_cur, add_edge, create_block. cbn [bl cur nb]. case_decide as E1.
    - subst n. rewrite lookup_alter_ne by lia. by rewrite lookup_insert.
    - case_decide as E2; [subst n; rewrite lookup_alter, lookup_insert_ne by lia; done|]. rewrite lookup_alter_ne, lookup_insert_ne by lia. done.
  Qed.
  Lemma next_block_ok s : ok s -> ok (next_block s).
  Proof.
    intros Hk. pose proof (ok_cur_lt _ Hk). split; [cbn; pose proof (ok_low s Hk); lia| |].
    - intros n. rewrite next_block_bl by done. cbn [nb next_block set_cur add_edge create_block]. case_decide as E1; [subst; split; [lia | eauto]|]. pose proof (ok_dom s Hk n). case_decide as E2; [rewrite fmap_is_Some|]; rewrite H0; lia.
    - rewrite next_block_bl by done. cbn [cur next_block set_cur]. rewrite decide_True by done. eauto.
  Qed.
  Lemma next_block_correct e s : ok s -> bounded e (nv s) -> correct e s e (next_block s) [] (fun _ => True).
  Proof.
    intros Hk Hb. pose proof (ok_cur_lt _ Hk). destruct (ok_cur s Hk) as [c Hc].
    assert (Hstep : forall G, fits G s (next_block s) -> forall k σ σf, from G s k σ σf <-> exists k', k = S k' /\ from G (next_block s) k' σ σf).
    { intros G [F1 (c' & ts & ss & F2 & F3)] k σ σf. assert (EG : G !! cur s = Some (Block c [nb s])). { rewrite F1; [|by right | cbn; lia]. rewrite next_block_bl by done. rewrite decide_False by lia. rewrite decide_True by done. by rewrite Hc. }
      rewrite next_block_bl in F2 by done. cbn [cur next_block set_cur] in F2, F3. rewrite decide_True in F2 by done. injection F2 as <-. cbn [app] in F3.
      assert (Hne : nb s <> exit) by (unfold exit; lia). pose proof (enter G (nb s) [] ts ss (cur s) k σ σf Hne F3) as He. cbn [map app fmap list_fmap mapM] in He. split.
      - intros (c1 & ts1 & ss1 & σ1 & m & H1 & H2 & H3 & H4 & H5). rewrite Hc in H1. injection H1 as <-. rewrite EG in H2. injection H2 as H2 <-. assert (ts1 = []) as ->. { destruct ts1; [done|]. exfalso. apply (f_equal length) in H2. rewrite app_length in H2. cbn in H2. lia. }
        cbn in H3. subst σ1. unfold Cfg.Spec.goes in H4. cbn [succ] in H4. subst m. apply He in H5 as (k' & us & σ1 & m & -> & [= <-] & H6 & H7 & H8). exists k'. split; [done|]. exists [], ts, ss, σ1, m. cbn [cur next_block set_cur app]. split; [by rewrite next_block_bl, decide_True|]. done.
      - intros (k' & -> & c1 & ts1 & ss1 & σ1 & m & H1 & H2 & H3 & H4 & H5). cbn [cur next_block set_cur] in H1, H2, H5. rewrite next_block_bl, decide_True in H1 by done. injection H1 as <-. cbn [app] in H2, H4. rewrite F3 in H2. injection H2 as H2 <-.
        exists c, [], [nb s], σ, (nb s). cbn [fmap list_fmap]. rewrite app_nil_r. split; [done|]. split; [done|]. split; [done|]. split; [done|]. apply He. exists k', [], σ1, m. split; [done|]. split; [done|]. apply tacs_inj in H2 as ->. done. }
    split.
    - split; [cbn; lia | done| | |].
      + intros n Hn Hc'. rewrite next_block_bl, decide_False, decide_False by (done || lia). done.
      + right. cbn. lia.
      + intros c' Hc'. exists [], [nb s]. rewrite next_block_bl, decide_False, decide_True by (done || lia). rewrite Hc'. cbn. by rewrite app_nil_r.
    - by apply next_block_ok.
    - done.
    - done.
    - by left.
    - intros HK G HG rho σ _ Ha. exists σ. split; [done|]. split; [done|]. intros k σf Hf. exists (S k). apply (Hstep G HG). eauto.
    - intros HK G HG σ k σf Hf. apply (Hstep G HG) in Hf as (k' & -> & Hf). exists σ, k'. split; [lia|]. done.
  Qed.
End Sem.
