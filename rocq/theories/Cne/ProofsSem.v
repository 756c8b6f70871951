(** Diverting congruent outputs to one of them keeps the values. *)
From stdpp Require Import base list list_numbers fin_sets gmap.
From Verif.Rvsdg Require Import Model Spec Sem Wf WfFacts Det Sim Args Refine Chase Divert Local.
From Verif.Cne Require Import Spec.

Section Just.
  Context (D : oid * view -> Prop) (s : oid -> oid).
  (** why s x may stand for x *)
  Inductive just (x : oid) : view -> Prop :=
    | j_self w : s x = x -> just x w
    | j_simple id id' l op k ins ins' : D (s x, VSimple id' l op k ins') -> s <$> ins = s <$> ins' -> just x (VSimple id l op k ins)
    | j_exit p brs brs' : D (s x, VGamma p brs') ->
        Forall2 (fun b b' : oid * oid * list (oid * oid) => b'.1.2 = b.1.2 /\ b'.2 = b.2 /\ s b'.1.1 = s b.1.1) brs brs' -> just x (VGamma p brs)
    | j_exit_inv p brs : (forall r c es, (r, c, es) ∈ brs -> exists z, (r, z) ∈ es /\ s z = s x) -> just x (VGamma p brs)
    | j_garg y y' : D (s x, VGammaArg y') -> just x (VGammaArg y)
    | j_theta p q q' i i' lvs : D (s x, VTheta p q' i' lvs) -> s q = s q' -> just x (VTheta p q i lvs)
    | j_theta_inv p q i lvs a z q' : (a, z, q') ∈ lvs -> s q = a -> s q' = a -> s z = s x -> just x (VTheta p q i lvs)
    | j_targ o o' i i' : D (s x, VThetaArg o' i') -> just x (VThetaArg o i)
    | j_copy y y' : D (s x, VCopy y') -> s y = s y' -> just x (VCopy y).
  Definition args_cong (w : view) : Prop :=
    match w with
    | VGamma p brs => forall x c es, (x, c, es) ∈ brs -> s c = c /\ forall a y, (a, y) ∈ es -> exists y', (s a, y') ∈ es /\ s y = s y'
    | VTheta p q i lvs => forall a x y, (a, x, y) ∈ lvs -> exists x' y', (s a, x', y') ∈ lvs /\ s x = s x' /\ s y = s y'
    | _ => True
    end.
End Just.

Section Sound.
  Context {V : Type} (ctl : V -> option nat) (content : V -> V) (sem : nat -> list V -> option (list V)) (addr imp : nat -> V).
  Local Notation eqn := (eqn ctl content sem addr imp).
  Local Notation ev := (ev ctl content sem addr imp).
  Context (t : region) (s : oid -> oid) (Hwf : wf_region t) (Hnd : NoDup (defs t).*1) (Hwf' : wf_region (dregion s t)).
  Local Notation D := (fun d : oid * view => d ∈ defs t).
  Local Notation t' := (dregion s t).
  Context (Hj : forall o w, (o, w) ∈ defs t -> just D s o w) (Hc : forall o w, (o, w) ∈ defs t -> args_cong s w).
  Local Notation Sm := (fun x y => y = s x).
  Local Notation hyp := (hyp ctl content sem addr imp t t' Sm).
  Local Notation cond := (cond ctl content sem addr imp t t' Sm).
  Local Notation erel := (erel (V:=V) t Sm).

  Lemma new_def o w : (o, w) ∈ defs t -> (o, vsub s w) ∈ defs t'.
  Proof using Hwf. clear -Hwf. intros H. apply elem_of_dsub; eauto. Qed.
  Lemma Hnd' : NoDup (defs t').*1.
  Proof using Hwf Hnd. clear -Hwf Hnd. by rewrite keys_dregion. Qed.
  Lemma sm_fmap (l : list oid) : Forall2 Sm l (s <$> l).
  Proof using. clear. induction l; constructor; auto. Qed.
  Lemma sm_fmap_eq (l l' : list oid) : s <$> l = s <$> l' -> Forall2 Sm l (s <$> l').
  Proof using. clear. intros <-. apply sm_fmap. Qed.
  Definition nes (es : list (oid * oid)) : list (oid * oid) := map (fun '(a, y) => (a, s y)) es.
  Definition nlv (l : list (oid * oid * oid)) : list (oid * oid * oid) := map (fun '(a, x, y) => (a, s x, s y)) l.
  Lemma nes_fst es : (nes es).*1 = es.*1.
  Proof using. clear. induction es as [|[a y] es IH]; [done|]. cbn. by rewrite <-IH. Qed.
  Lemma nlv_fst l : (nlv l).*1.*1 = l.*1.*1.
  Proof using. clear. induction l as [|[[a x] y] l IH]; [done|]. cbn. by rewrite <-IH. Qed.
  Lemma elem_nes es a y' : (a, y') ∈ nes es <-> exists y, (a, y) ∈ es /\ y' = s y.
  Proof using.
    clear. unfold nes. rewrite elem_of_list_In, in_map_iff. split.
    - intros ([a0 y] & [= -> <-] & H%elem_of_list_In). eauto.
    - intros (y & H%elem_of_list_In & ->). exists (a, y). done.
  Qed.
  Lemma elem_nlv l a x' y' : (a, x', y') ∈ nlv l <-> exists x y, (a, x, y) ∈ l /\ x' = s x /\ y' = s y.
  Proof using.
    clear. unfold nlv. rewrite elem_of_list_In, in_map_iff. split.
    - intros ([[a0 x] y] & [= -> <- <-] & H%elem_of_list_In). eauto.
    - intros (x & y & H%elem_of_list_In & -> & ->). exists (a, x, y). done.
  Qed.
  Lemma entry_ok o p brs x c es : (o, VGamma p brs) ∈ defs t -> (x, c, es) ∈ brs -> entry_rel t Sm c es c (nes es).
  Proof using Hwf Hnd Hc.
    clear Hj Hwf'. intros Ho Hin. destruct (args_ok t o _ Hwf Hnd Ho _ _ _ Hin) as [Hn _]. destruct (Hc _ _ Ho _ _ _ Hin) as [Hcc Hes]. unfold entry_rel. rewrite nes_fst. split; [done|]. split; [done|]. split.
    - intros b y' (y & Hy & ->)%elem_nes. eauto.
    - intros a b _ ->. split; [by intros -> |]. intros y Hy. destruct (Hes _ _ Hy) as (y' & Hy' & He). exists (s y'). split; [apply elem_nes; eauto | done].
  Qed.
  Lemma lv_ok o p q i lvs : (o, VTheta p q i lvs) ∈ defs t -> lv_rel t Sm lvs (nlv lvs).
  Proof using Hwf Hnd Hc.
    clear Hj Hwf'. intros Ho. destruct (args_ok t o _ Hwf Hnd Ho) as (Hn & _ & _). pose proof (Hc _ _ Ho) as Hl. cbn [args_cong] in Hl. unfold lv_rel. rewrite nlv_fst. split; [done|]. split; [done|]. split.
    - intros b x' y' (x & y & Hy & -> & ->)%elem_nlv. exists b, x, y. done.
    - intros a b x y _ -> Hin. destruct (Hl _ _ _ Hin) as (x' & y' & Hin' & H1 & H2). exists (s x'), (s y'). split; [apply elem_nlv; eauto | done].
  Qed.
  Lemma gamma_cond o l p brs brs' : (o, VGamma p brs) ∈ defs t -> (l, VGamma p brs') ∈ defs t ->
    Forall2 (fun b b' : oid * oid * list (oid * oid) => b'.1.2 = b.1.2 /\ b'.2 = b.2 /\ s b'.1.1 = s b.1.1) brs brs' -> cond o l (VGamma p brs).
  Proof using Hwf Hnd Hc.
    clear Hj Hwf'. intros Ho Hl Hb. apply new_def in Hl. cbn [vsub] in Hl. eapply cond_gamma; [exact Hnd' | exact Hl | done|]. intros b r c es Hbr.
    destruct (Forall2_lookup_l _ _ _ _ _ Hb Hbr) as ([[r' c'] es'] & Hbr' & H1 & H2 & H3). cbn [fst snd] in H1, H2, H3. subst c' es'. exists (s r'), c, (nes es). split; [|split; [done|]].
    - change (map ?f ?l) with (f <$> l). by rewrite list_lookup_fmap, Hbr'.
    - eapply entry_ok; [exact Ho | by eapply elem_of_list_lookup_2].
  Qed.
  Lemma bind_nth (args : list nat) (vs : list V) i a v : NoDup args -> length args = length vs -> args !! i = Some a -> bind (zip args vs) a = Some v -> vs !! i = Some v.
  Proof using. clear. intros Hn Hl Ha (j & Hj & Hv)%bind_lookup; [|done|done]. by rewrite (NoDup_lookup _ _ _ _ Hn Ha Hj). Qed.
  Lemma cong_cond x w : (x, w) ∈ defs t -> cond x (s x) w.
  Proof using Hwf Hnd Hj Hc Hwf'.
    intros Hx. pose proof Hnd' as Hn'. destruct (Hj x w Hx) as [w Hs | id id' l op k ins ins' Hd Hi | p brs brs' Hd Hb | p brs Hb | y y' Hd | p q q' i i' lvs Hd Hq | p q i lvs a z q' Hin Hq Hq' Hz | o o' i i' Hd | y y' Hd Hy].
    - rewrite Hs. pose proof (new_def _ _ Hx) as Hx'. destruct w as [id l op k ins | p brs | y | p q i lvs | o i | id a r | | id r | y | id]; cbn [vsub] in Hx'.
      + eapply cond_simple; [exact Hx' | apply sm_fmap].
      + eapply gamma_cond; [done | done|]. clear. induction brs; constructor; auto.
      + eapply cond_garg; [exact Hx | exact Hx' | done].
      + eapply cond_theta; [exact Hn' | exact Hx' | done | done | by eapply lv_ok].
      + eapply cond_targ; [exact Hx | exact Hx' | done].
      + eapply cond_lambda; exact Hx'.
      + eapply cond_farg; [exact Hx | exact Hx' | done].
      + eapply cond_delta; exact Hx'.
      + eapply cond_copy; [exact Hx' | done].
      + eapply cond_import; exact Hx'.
    - eapply cond_simple; [exact (new_def _ _ Hd) | by apply sm_fmap_eq].
    - by eapply gamma_cond.
    - intros e e' v He (pv & b & r & c & es & vs & _ & _ & Hbr & Hes & [Hr _]). pose proof (elem_of_list_lookup_2 _ _ _ Hbr) as Hin. destruct (Hb _ _ _ Hin) as (z & Hrz & Hz).
      destruct (args_ok t x _ Hwf Hnd Hx _ _ _ Hin) as [Hn Ha]. pose proof (Ha r z ltac:(by right)) as Har. apply ev_unfold in Hr as (w & Hw & Hr). pose proof (defs_fun _ _ _ _ Hnd Hw Har) as ->. cbn [Spec.eqn] in Hr.
      apply NoDup_cons in Hn as [Hn1 Hn2]. assert (Hlen : length es.*1 = length vs) by (rewrite fmap_length; rewrite <-(Forall2_length _ _ _ Hes); by rewrite fmap_length).
      rewrite bind_cons, decide_False in Hr. 2:{ intros ->. apply Hn1. apply elem_of_fst. eauto. }
      apply elem_of_list_lookup in Hrz as [i Hi]. apply (bind_nth _ _ i) in Hr; [|done|done|by rewrite list_lookup_fmap, Hi].
      destruct (Forall2_lookup_r _ _ _ _ _ Hes Hr) as (z' & Hz' & [_ Hzv]). rewrite list_lookup_fmap, Hi in Hz'. cbn in Hz'. injection Hz' as <-. rewrite <-Hz. by apply Hzv.
    - eapply cond_garg; [exact Hx | exact (new_def _ _ Hd) | done].
    - eapply cond_theta; [exact Hn' | exact (new_def _ _ Hd) | done | by rewrite Hq | by eapply lv_ok].
    - intros e e' v He (vs & Hv & HL). pose proof (lv_ok _ _ _ _ _ Hx) as Hlv. destruct (args_ok t x _ Hwf Hnd Hx) as (Hn & Ha & _).
      assert (Hv1 : Forall2 (hyp e) ((fun d : oid * oid * oid => (d.1.1, d.1.2)) <$> lvs).*2 vs) by (by rewrite (proj2 (map_lvs1 lvs))).
      destruct (lv_step ctl content sem addr imp t t' Sm Hn' _ e e' lvs (nlv lvs) vs (or_introl eq_refl) He Hlv Hv1) as (vs' & Hv' & Hr). rewrite (proj2 (map_lvs1 (nlv lvs))) in Hv'.
      apply elem_of_list_lookup in Hin as [j Hj']. destruct (Ha a z q') as [out Hout]; [by eapply elem_of_list_lookup_2|]. pose proof (new_def _ _ Hout) as Hout'. cbn [vsub] in Hout'.
      assert (Harg : forall (us : list V) u, length lvs = length us -> ev t' (bind (zip (nlv lvs).*1.*1 us)) a u -> us !! j = Some u).
      { intros us u Hlu Hu. apply ev_unfold in Hu as (w & Hw & Hu). pose proof (defs_fun _ _ _ _ Hn' Hw Hout') as ->. cbn [Spec.eqn] in Hu. apply (bind_nth _ _ j) in Hu; [done | by rewrite nlv_fst | rewrite nlv_fst, !fmap_length; lia|].
        rewrite nlv_fst, !list_lookup_fmap, Hj'. done. }
      assert (Hlen : forall (l : list (oid * oid * oid)), length (nlv l) = length l) by (intros; unfold nlv; by rewrite map_length).
      assert (Hfin : vs' !! j = Some v).
      { assert (Hl' : length lvs = length vs') by (rewrite <-(Forall2_length _ _ _ Hv'); by rewrite !fmap_length, Hlen). clear Hv' Hv Hv1. revert vs' Hr Hl'.
        induction HL as [vs pv v _ _ [_ H3] | vs pv ws v _ _ H3 H4 IH]; intros vs' Hr Hl'.
        - apply Harg; [done|]. apply H3; [exact Hr | done].
        - assert (H3' : Forall2 (hyp (bind (zip lvs.*1.*1 vs))) ((fun d : oid * oid * oid => (d.1.1, d.2)) <$> lvs).*2 ws) by (by rewrite (proj2 (map_lvs2 lvs))).
          destruct (lv_step ctl content sem addr imp t t' Sm Hn' _ _ _ lvs (nlv lvs) ws (or_intror eq_refl) Hr Hlv H3') as (ws' & Hw' & Hr'). rewrite (proj2 (map_lvs2 (nlv lvs))) in Hw'.
          assert (Hlw : length lvs = length ws') by (rewrite <-(Forall2_length _ _ _ Hw'); by rewrite fmap_length, Hlen). pose proof (IH ws' Hr' Hlw) as Hw. destruct (Forall2_lookup_r _ _ _ _ _ Hw' Hw) as (y & Hy & Hev).
          apply Harg; [done|]. rewrite list_lookup_fmap in Hy. unfold nlv in Hy. change (map ?f lvs) with (f <$> lvs) in Hy. rewrite list_lookup_fmap, Hj' in Hy. cbn in Hy. injection Hy as <-. by rewrite Hq' in Hev. }
      destruct (Forall2_lookup_r _ _ _ _ _ Hv' Hfin) as (y & Hy & Hev). rewrite !list_lookup_fmap in Hy. unfold nlv in Hy. change (map ?f lvs) with (f <$> lvs) in Hy. rewrite list_lookup_fmap, Hj' in Hy. cbn in Hy. injection Hy as <-. by rewrite <-Hz.
    - eapply cond_targ; [exact Hx | exact (new_def _ _ Hd) | done].
    - eapply cond_copy; [exact (new_def _ _ Hd) | done].
  Qed.
  Lemma cong_sim e e' x v : erel e e' -> ev t e x v -> ev t' e' (s x) v.
  Proof using Hwf Hnd Hj Hc Hwf'. intros He H. eapply (sim ctl content sem addr imp t t' Sm); [|exact H|exact He|done]. intros x0 y0 w -> Hw. by apply cong_cond. Qed.

  (** the body of a function or of a global variable: no argument of an enclosing region is in scope *)
  Lemma body_values r e x v : reg t r -> (forall a, a ∈ rargs r -> argument t a -> s a = a) -> x ∈ rres r -> ev t e x v -> ev t' e (s x) v.
  Proof using Hwf Hnd Hj Hc Hwf'.
    intros Hr Ha Hx Hev. pose proof (wf_region_res _ _ (reg_wf _ _ Hwf Hr) Hx) as Hs. pose proof (ev_restrict ctl content sem addr imp t e x v Hwf Hnd Hev r Hr Hs) as Hev'.
    eapply cong_sim; [|exact Hev']. intros a b u Harg -> Hu. unfold restrict in Hu. case_decide as Hin; [|done]. rewrite (Ha a Hin Harg). done.
  Qed.
  Lemma farg_self a : (a, VFunArg) ∈ defs t -> s a = a.
  Proof using Hj. clear -Hj. intros Ha. pose proof (Hj _ _ Ha) as H. by inversion H. Qed.
  Theorem cong_refines : same_functions ctl content sem addr imp t t'.
  Proof using Hwf Hnd Hj Hc Hwf'.
    assert (Hl : forall r (l : list oid), reg t r -> (forall a, a ∈ rargs r -> argument t a -> s a = a) -> (forall x, x ∈ l -> x ∈ rres r) -> same_values ctl content sem addr imp t t' l (s <$> l)).
    { intros r l Hr Ha Hx. unfold same_values. assert (Hx' : forall x, x ∈ l -> x ∈ rres r) by done. clear Hx. induction l as [|x l IH]; constructor.
      - intros e v. apply (body_values r); [done | done|]. apply Hx'. left.
      - apply IH. intros y Hy. apply Hx'. by right. }
    assert (Hargs : forall r n r', reg t r -> n ∈ rnodes r -> r' ∈ nsubs n -> (exists m, nkind n = Lambda m) \/ nkind n = Delta -> forall a, a ∈ rargs r' -> argument t a -> s a = a).
    { intros r n r' Hr Hn Hr' Hk a Ha (w & Hw & Hia). apply elem_of_list_lookup in Ha as [i Hi]. pose proof (node_arg_def t r n r' i a Hr Hn Hr' Hi) as Hd. pose proof (defs_fun _ _ _ _ Hnd Hw Hd) as ->.
      destruct Hk as [[m Hk]|Hk]; rewrite Hk in Hd, Hia; cbn [arg_view] in Hd, Hia; [|done]. case_decide; [|done]. by apply farg_self. }
    split.
    - rewrite rres_dregion. apply (Hl t); [constructor | | done]. intros a Ha (w & Hw & Hia). assert (Hd : (a, VImport a) ∈ defs t). { unfold defs. apply elem_of_app. left. apply elem_of_list_In, in_map_iff. exists a. split; [done | by apply elem_of_list_In]. }
      by rewrite (defs_fun _ _ _ _ Hnd Hw Hd) in Hia.
    - intros o id a r Ho. exists (s <$> r). pose proof (new_def _ _ Ho) as Ho'. split; [done|]. apply defs_inv in Ho as [[_ ?]|(r0 & n & Hr0 & Hn & [(i & Hi & Hv)|(r' & i & _ & _ & Hv)])]; [done | |unfold arg_view in Hv; destruct (nkind n); repeat case_decide; done].
      pose proof (wf_region_node _ _ (reg_wf _ _ Hwf Hr0) Hn) as Hwn. destruct n as [id0 k ins outs subs]. cbn [nid nkind nins nouts nsubs] in *. destruct k; try done. cbn [out_view] in Hv. injection Hv as -> -> ->.
      apply wf_node_unfold in Hwn as [Hsh _]. destruct Hsh as (rb & -> & _). cbn [nth]. apply (Hl rb); [eapply reg_sub; [exact Hr0 | exact Hn | left] | | done]. eapply Hargs; [exact Hr0 | exact Hn | left | left; cbn; eauto].
    - intros o id r Ho. exists (s <$> r). pose proof (new_def _ _ Ho) as Ho'. split; [done|]. apply defs_inv in Ho as [[_ ?]|(r0 & n & Hr0 & Hn & [(i & Hi & Hv)|(r' & i & _ & _ & Hv)])]; [done | |unfold arg_view in Hv; destruct (nkind n); repeat case_decide; done].
      pose proof (wf_region_node _ _ (reg_wf _ _ Hwf Hr0) Hn) as Hwn. destruct n as [id0 k ins outs subs]. cbn [nid nkind nins nouts nsubs] in *. destruct k; try done. cbn [out_view] in Hv. injection Hv as -> ->.
      apply wf_node_unfold in Hwn as [Hsh _]. destruct Hsh as (rb & -> & _). cbn [nth]. apply (Hl rb); [eapply reg_sub; [exact Hr0 | exact Hn | left] | | done]. eapply Hargs; [exact Hr0 | exact Hn | left | right; done].
  Qed.
End Sound.
