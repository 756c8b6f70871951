(** A general simulation argument between two modules. *)
From stdpp Require Import base list list_numbers fin_sets gmap.
From Verif.Rvsdg Require Import Model Spec Sem Wf WfFacts Det.

Section Bind.
  Context {V : Type}.
  Lemma bind_lookup (args : list nat) (vs : list V) a v : NoDup args -> length args = length vs -> bind (zip args vs) a = Some v <-> exists i, args !! i = Some a /\ vs !! i = Some v.
  Proof.
    intros Hn Hl. unfold bind. rewrite <-elem_of_list_to_map.
    - rewrite elem_of_list_lookup. split; intros [i Hi]; exists i.
      + apply lookup_zip_with_Some in Hi as (? & ? & [= <- <-] & ? & ?). done.
      + apply lookup_zip_with_Some. exists a, v. naive_solver.
    - rewrite fst_zip by lia. done.
  Qed.
  Lemma bind_cons a (v : V) l b : bind ((a, v) :: l) b = if decide (a = b) then Some v else bind l b.
  Proof. unfold bind. cbn. case_decide; [subst; by rewrite lookup_insert | by rewrite lookup_insert_ne]. Qed.
End Bind.

Section Sim.
  Context {V : Type} (ctl : V -> option nat) (content : V -> V) (sem : nat -> list V -> option (list V)) (addr imp : nat -> V).
  Local Notation eqn := (eqn ctl content sem addr imp).
  Local Notation ev := (ev ctl content sem addr imp).
  Context (t t' : region) (Sm : oid -> oid -> Prop).

  (** related environments: related arguments have the same value *)
  Definition is_arg (w : view) : bool := match w with VGammaArg _ | VThetaArg _ _ | VFunArg => true | _ => false end.
  Definition argument (a : oid) : Prop := exists w, (a, w) ∈ defs t /\ is_arg w = true.
  Definition erel (e e' : env (V:=V)) : Prop := forall a b v, argument a -> Sm a b -> e a = Some v -> e' b = Some v.
  Definition hyp (e : env) (o : oid) (v : V) : Prop := ev t e o v /\ forall e' o', erel e e' -> Sm o o' -> ev t' e' o' v.
  Definition cond (x y : oid) (w : view) : Prop := forall e e' v, erel e e' -> eqn hyp e x w v -> ev t' e' y v.

  Lemma sim : (forall x y w, Sm x y -> (x, w) ∈ defs t -> cond x y w) -> forall e x v, ev t e x v -> forall e' y, erel e e' -> Sm x y -> ev t' e' y v.
  Proof using.
    intros H. apply (ev_ind ctl content sem addr imp t (fun e x v => forall e' y, erel e e' -> Sm x y -> ev t' e' y v)).
    intros e x v (w & Hw & He) e' y Hr Hs. eapply H; eauto.
  Qed.
  Lemma erel_emp : erel emp emp.
  Proof using. intros a b v _ _. done. Qed.

  Lemma hyp_list e e' l l' vs : erel e e' -> Forall2 Sm l l' -> Forall2 (hyp e) l vs -> Forall2 (ev t' e') l' vs.
  Proof using.
    intros He Hl. revert vs. induction Hl as [|x x' l l' Hx Hl IH]; intros vs Hv; inversion Hv as [|? v ? vs' [_ H]]; subst; constructor; [by apply H | auto].
  Qed.

  Lemma cond_simple x y id id' l l' op k ins ins' : (y, VSimple id' l' op k ins') ∈ defs t' -> Forall2 Sm ins ins' -> cond x y (VSimple id l op k ins).
  Proof using.
    intros Hy Hi e e' v He (vs & ws & Hv & Hs & Hk). apply ev_fold. eexists. split; [exact Hy|]. exists vs, ws. split; [by eapply hyp_list | done].
  Qed.
  Lemma cond_garg x y a a' : (x, VGammaArg a) ∈ defs t -> (y, VGammaArg a') ∈ defs t' -> Sm x y -> cond x y (VGammaArg a).
  Proof using. intros Hx Hy Hs e e' v He H. apply ev_fold. eexists. split; [exact Hy|]. eapply He; [eexists; split; [exact Hx | done] | done | done]. Qed.
  Lemma cond_targ x y a a' b b' : (x, VThetaArg a b) ∈ defs t -> (y, VThetaArg a' b') ∈ defs t' -> Sm x y -> cond x y (VThetaArg a b).
  Proof using. intros Hx Hy Hs e e' v He H. apply ev_fold. eexists. split; [exact Hy|]. eapply He; [eexists; split; [exact Hx | done] | done | done]. Qed.
  Lemma cond_farg x y : (x, VFunArg) ∈ defs t -> (y, VFunArg) ∈ defs t' -> Sm x y -> cond x y VFunArg.
  Proof using. intros Hx Hy Hs e e' v He H. apply ev_fold. eexists. split; [exact Hy|]. eapply He; [eexists; split; [exact Hx | done] | done | done]. Qed.
  Lemma cond_lambda x y id a a' r r' : (y, VLambda id a' r') ∈ defs t' -> cond x y (VLambda id a r).
  Proof using. intros Hy e e' v He H. apply ev_fold. eexists. split; [exact Hy | done]. Qed.
  Lemma cond_delta x y id r r' : (y, VDelta id r') ∈ defs t' -> cond x y (VDelta id r).
  Proof using. intros Hy e e' v He H. apply ev_fold. eexists. split; [exact Hy | done]. Qed.
  Lemma cond_import x y id : (y, VImport id) ∈ defs t' -> cond x y (VImport id).
  Proof using. intros Hy e e' v He H. apply ev_fold. eexists. split; [exact Hy | done]. Qed.
  Lemma cond_copy x y z z' : (y, VCopy z') ∈ defs t' -> Sm z z' -> cond x y (VCopy z).
  Proof using. intros Hy Hs e e' v He [_ H]. apply ev_fold. eexists. split; [exact Hy|]. cbn. apply H; [apply erel_emp | done]. Qed.

  Context (Hnd' : NoDup (defs t').*1).

  Definition entry_rel (c : oid) (es : list (oid * oid)) (c' : oid) (es' : list (oid * oid)) : Prop :=
    NoDup (c :: es.*1) /\ NoDup (c' :: es'.*1) /\
    (forall b y', (b, y') ∈ es' -> exists a y, (a, y) ∈ es /\ Sm y y') /\
    (forall a b, argument a -> Sm a b -> (a = c -> b = c') /\ (forall y, (a, y) ∈ es -> exists y', (b, y') ∈ es' /\ Sm y y')).
  Lemma hyp_exists e e' (es es' : list (oid * oid)) vs : erel e e' -> (forall b y', (b, y') ∈ es' -> exists a y, (a, y) ∈ es /\ Sm y y') -> Forall2 (hyp e) es.*2 vs ->
    exists vs', Forall2 (ev t' e') es'.*2 vs'.
  Proof using.
    clear Hnd'. intros He H Hv. induction es' as [|[b y'] es' IH]; [exists []; constructor|].
    destruct IH as [vs' Hvs']. { intros b0 y0 H0. apply (H b0). by right. }
    destruct (H b y') as (a & y & Hay & Hs); [left|]. apply elem_of_list_lookup in Hay as [i Hi].
    destruct (Forall2_lookup_l _ _ _ i y Hv) as (v & _ & [_ Hy]); [by rewrite list_lookup_fmap, Hi|]. exists (v :: vs'). constructor; [by apply Hy | done].
  Qed.
  Lemma bind_rel e e' es es' (vs vs' : list V) : erel e e' -> NoDup es.*1 -> NoDup es'.*1 -> Forall2 (hyp e) es.*2 vs -> Forall2 (ev t' e') es'.*2 vs' ->
    forall a b v, (forall y, (a, y) ∈ es -> exists y', (b, y') ∈ es' /\ Sm y y') -> bind (zip es.*1 vs) a = Some v -> bind (zip es'.*1 vs') b = Some v.
  Proof using Hnd'.
    intros He Hn Hn' Hv Hv' a b v H Hb. pose proof (Forall2_length _ _ _ Hv) as Hl. pose proof (Forall2_length _ _ _ Hv') as Hl'. rewrite !fmap_length in *.
    apply bind_lookup in Hb as (i & Hi & Hvi); [|done|by rewrite fmap_length].
    rewrite list_lookup_fmap in Hi. destruct (es !! i) as [[a0 y]|] eqn:E; [|done]. cbn in Hi. injection Hi as ->.
    destruct (H y) as (y' & Hy' & Hs); [by eapply elem_of_list_lookup_2|]. apply elem_of_list_lookup in Hy' as [j Hj].
    apply bind_lookup; [done | by rewrite fmap_length|]. exists j. rewrite list_lookup_fmap, Hj. split; [done|].
    destruct (Forall2_lookup_l _ _ _ j y' Hv') as (v' & Hvj & Hev); [by rewrite list_lookup_fmap, Hj|]. rewrite Hvj. f_equal.
    destruct (Forall2_lookup_l _ _ _ i y Hv) as (v2 & Hv2 & [_ Hy]); [by rewrite list_lookup_fmap, E|]. assert (v2 = v) as -> by congruence.
    eapply ev_det; [exact Hnd' | exact Hev | by apply Hy].
  Qed.
  Lemma cond_gamma x y p p' brs brs' : (y, VGamma p' brs') ∈ defs t' -> Sm p p' ->
    (forall b r c es, brs !! b = Some (r, c, es) -> exists r' c' es', brs' !! b = Some (r', c', es') /\ Sm r r' /\ entry_rel c es c' es') ->
    cond x y (VGamma p brs).
  Proof using Hnd'.
    intros Hy Hp Hb e e' v He (pv & b & r & c & es & vs & [_ Hpv] & Hc & Hbr & Hes & [_ Hr]).
    destruct (Hb _ _ _ _ Hbr) as (r' & c' & es' & Hbr' & Hrr & Hn & Hn' & Hex & Ha).
    destruct (hyp_exists e e' es es' vs He Hex Hes) as [vs' Hvs'].
    apply ev_fold. eexists. split; [exact Hy|]. exists pv, b, r', c', es', vs'. split; [by apply Hpv|]. do 2 (split; [done|]). split; [done|]. apply Hr; [|done].
    intros a0 b0 v0 Hs1 Hs0. rewrite !bind_cons. destruct (Ha a0 b0 Hs1 Hs0) as [H1 H2]. apply NoDup_cons in Hn as [Hn1 Hn2], Hn' as [Hn1' Hn2'].
    destruct (decide (c = a0)) as [->|Hca].
    - intros [= <-]. rewrite (H1 eq_refl). by rewrite decide_True.
    - intros Hb0. pose proof (bind_rel e e' es es' vs vs' He Hn2 Hn2' Hes Hvs' a0 b0 v0 H2 Hb0) as Hb0'. case_decide as Hcb; [|done]. subst b0. exfalso. apply Hn1'.
      apply bind_lookup in Hb0' as (j & Hj & _); [by eapply elem_of_list_lookup_2 | done|]. rewrite fmap_length. rewrite <-(Forall2_length _ _ _ Hvs'). by rewrite fmap_length.
  Qed.

  Definition lv_rel (lvs lvs' : list (oid * oid * oid)) : Prop :=
    NoDup lvs.*1.*1 /\ NoDup lvs'.*1.*1 /\
    (forall b x' y', (b, x', y') ∈ lvs' -> exists a x y, (a, x, y) ∈ lvs /\ Sm x x' /\ Sm y y') /\
    (forall a b x y, argument a -> Sm a b -> (a, x, y) ∈ lvs -> exists x' y', (b, x', y') ∈ lvs' /\ Sm x x' /\ Sm y y').
  Definition env_rel (lvs lvs' : list (oid * oid * oid)) (vs vs' : list V) : Prop := erel (bind (zip lvs.*1.*1 vs)) (bind (zip lvs'.*1.*1 vs')).
  Lemma map_lvs1 (l : list (oid * oid * oid)) : ((fun d : oid * oid * oid => (d.1.1, d.1.2)) <$> l).*1 = l.*1.*1 /\ ((fun d : oid * oid * oid => (d.1.1, d.1.2)) <$> l).*2 = l.*1.*2.
  Proof using. clear. induction l as [|[[a x] y] l [IH1 IH2]]; [done|]. cbn. by rewrite IH1, IH2. Qed.
  Lemma map_lvs2 (l : list (oid * oid * oid)) : ((fun d : oid * oid * oid => (d.1.1, d.2)) <$> l).*1 = l.*1.*1 /\ ((fun d : oid * oid * oid => (d.1.1, d.2)) <$> l).*2 = l.*2.
  Proof using. clear. induction l as [|[[a x] y] l [IH1 IH2]]; [done|]. cbn. by rewrite IH1, IH2. Qed.
  Lemma lv_step (f : oid * oid * oid -> oid * oid) e e' lvs lvs' vs : (f = (fun d => (d.1.1, d.1.2)) \/ f = (fun d => (d.1.1, d.2))) -> erel e e' -> lv_rel lvs lvs' ->
    Forall2 (hyp e) (f <$> lvs).*2 vs -> exists vs', Forall2 (ev t' e') (f <$> lvs').*2 vs' /\ env_rel lvs lvs' vs vs'.
  Proof using Hnd'.
    intros Hf He (Hn & Hn' & Hex & Ha) Hv.
    assert (Hf1 : forall l, (f <$> l).*1 = l.*1.*1) by (intros l; destruct Hf as [-> | ->]; [apply map_lvs1 | apply map_lvs2]).
    assert (Hel : forall (l : list (oid * oid * oid)) a z, (a, z) ∈ f <$> l <-> exists x y, (a, x, y) ∈ l /\ (f (a, x, y)).2 = z).
    { intros l a z. rewrite elem_of_list_fmap. split.
      - intros ([[a0 x] y] & E & Hin). exists x, y. destruct Hf as [-> | ->]; cbn in E; injection E as -> ->; done.
      - intros (x & y & Hin & <-). exists (a, x, y). split; [|done]. by destruct Hf as [-> | ->]. }
    assert (Hsm : forall a b x y x' y', Sm x x' -> Sm y y' -> Sm (f (a, x, y)).2 (f (b, x', y')).2) by (intros; destruct Hf as [-> | ->]; done).
    destruct (hyp_exists e e' (f <$> lvs) (f <$> lvs') vs He) as [vs' Hvs']; [|done|].
    { intros b z' (x' & y' & Hin & <-)%Hel. destruct (Hex _ _ _ Hin) as (a & x & y & Hin2 & Hs2 & Hs3). exists a, (f (a, x, y)).2. split; [apply Hel; eauto | by apply Hsm]. }
    exists vs'. split; [done|]. intros a b v Hs1 Hs Hb. rewrite <-Hf1 in Hb |- *. eapply (bind_rel e e' (f <$> lvs) (f <$> lvs') vs vs' He); [by rewrite Hf1 | by rewrite Hf1 | done | done | | exact Hb].
    intros z (x & y & Hin & <-)%Hel. destruct (Ha _ _ _ _ Hs1 Hs Hin) as (x' & y' & Hin' & H1 & H2). exists (f (b, x', y')).2. split; [apply Hel; eauto | by apply Hsm].
  Qed.
  Lemma cond_theta x y p p' q q' i i' lvs lvs' : (y, VTheta p' q' i' lvs') ∈ defs t' -> Sm p p' -> Sm q q' -> lv_rel lvs lvs' -> cond x y (VTheta p q i lvs).
  Proof using Hnd'.
    intros Hy Hp Hq Hl e e' v He (vs & Hv & HL).
    assert (Hv1 : Forall2 (hyp e) ((fun d : oid * oid * oid => (d.1.1, d.1.2)) <$> lvs).*2 vs) by (by rewrite (proj2 (map_lvs1 lvs))).
    destruct (lv_step _ e e' lvs lvs' vs (or_introl eq_refl) He Hl Hv1) as (vs' & Hv' & Hr). rewrite (proj2 (map_lvs1 lvs')) in Hv'.
    apply ev_fold. eexists. split; [exact Hy|]. exists vs'. split; [done|]. clear Hv1 Hv'. revert vs' Hr.
    clear Hv. induction HL as [vs pv v [_ H1] H2 [_ H3] | vs pv ws v [_ H1] H2 H3 H4 IH]; intros vs' Hr.
    - eapply loop_exit; [by apply H1 | done | by apply H3].
    - assert (H3' : Forall2 (hyp (bind (zip lvs.*1.*1 vs))) ((fun d : oid * oid * oid => (d.1.1, d.2)) <$> lvs).*2 ws) by (by rewrite (proj2 (map_lvs2 lvs))).
      destruct (lv_step _ _ _ lvs lvs' ws (or_intror eq_refl) Hr Hl H3') as (ws' & Hw' & Hr'). rewrite (proj2 (map_lvs2 lvs')) in Hw'.
      eapply loop_next; [by apply H1 | done | exact Hw' | by apply IH].
  Qed.
End Sim.
