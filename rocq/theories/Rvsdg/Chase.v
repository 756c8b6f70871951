(** Replacing outputs that only pass a value on by the outputs whose value they pass on. *)
From stdpp Require Import base list list_numbers fin_sets gmap.
From Verif.Rvsdg Require Import Model Spec Sem Wf WfFacts Det Sim Args Refine.

(** a load does not change memory states *)
Definition passes {V} (sem : nat -> list V -> option (list V)) (D : oid * view -> Prop) : Prop :=
  forall o id op k ins vs ws, D (o, VSimple id true op (S k) ins) -> sem op vs = Some ws -> ws !! S k = vs !! S k.

Section Chase.
  Context (D : oid * view -> Prop).
  (** x passes on the value of y: an exit variable that is in every branch an entry variable which passes y on; a loop variable that
      is not changed; a memory state of a load *)
  Inductive chase : oid -> oid -> Prop :=
    | chase_refl x : chase x x
    | chase_gamma o p brs (la lz : list oid) y : D (o, VGamma p brs) ->
        (forall i r c es, brs !! i = Some (r, c, es) -> chase r (nth i la 0)) ->
        (forall i r c es, brs !! i = Some (r, c, es) -> (nth i la 0, nth i lz 0) ∈ es) ->
        (forall i r c es, brs !! i = Some (r, c, es) -> chase (nth i lz 0) y) -> chase o y
    | chase_theta o p q i lvs a y : D (o, VTheta p q i lvs) -> (a, i, q) ∈ lvs -> chase q a -> chase i y -> chase o y
    | chase_load o id op k ins z y : D (o, VSimple id true op (S k) ins) -> ins !! S k = Some z -> chase z y -> chase o y.
  Lemma chase_trans x y z : chase x y -> chase y z -> chase x z.
  Proof using.
    intros H. induction H as [|o p brs la lz y H1 H2 _ H3 H4 IH | |]; intros Hz; [done | | |].
    - eapply chase_gamma; eauto.
    - eapply chase_theta; eauto.
    - eapply chase_load; eauto.
  Qed.

  (** equations that agree up to the outputs that are passed on *)
  Definition brel (b b' : oid * oid * list (oid * oid)) : Prop :=
    chase b.1.1 b'.1.1 /\ b'.1.2 = b.1.2 /\ Forall2 (fun d d' => d'.1 = d.1 /\ chase d.2 d'.2) b.2 b'.2.
  Definition lrel (d d' : oid * oid * oid) : Prop := d'.1.1 = d.1.1 /\ chase d.1.2 d'.1.2 /\ chase d.2 d'.2.
  Inductive vrel : view -> view -> Prop :=
    | vr_simple id l op k ins ins' : Forall2 chase ins ins' -> vrel (VSimple id l op k ins) (VSimple id l op k ins')
    | vr_gamma p p' brs brs' : chase p p' -> Forall2 brel brs brs' -> vrel (VGamma p brs) (VGamma p' brs')
    | vr_garg e e' : vrel (VGammaArg e) (VGammaArg e')
    | vr_theta p p' q q' i i' lvs lvs' : chase p p' -> chase q q' -> Forall2 lrel lvs lvs' -> vrel (VTheta p q i lvs) (VTheta p' q' i' lvs')
    | vr_targ o o' i i' : vrel (VThetaArg o i) (VThetaArg o' i')
    | vr_lambda id a r r' : Forall2 chase r r' -> vrel (VLambda id a r) (VLambda id a r')
    | vr_farg : vrel VFunArg VFunArg
    | vr_delta id r r' : Forall2 chase r r' -> vrel (VDelta id r) (VDelta id r')
    | vr_copy x x' : chase x x' -> vrel (VCopy x) (VCopy x')
    | vr_import id : vrel (VImport id) (VImport id).
End Chase.

Section Sound.
  Context {V : Type} (ctl : V -> option nat) (content : V -> V) (sem : nat -> list V -> option (list V)) (addr imp : nat -> V).
  Local Notation eqn := (eqn ctl content sem addr imp).
  Local Notation ev := (ev ctl content sem addr imp).
  Context (t t' : region) (Hwf : wf_region t) (Hnd : NoDup (defs t).*1) (Hpass : passes sem (fun d => d ∈ defs t)).
  Context (Hwf' : wf_region t') (Hnd' : NoDup (defs t').*1).
  Local Notation D := (fun d : oid * view => d ∈ defs t).

  Lemma ev_garg e a y v : (a, VGammaArg y) ∈ defs t -> ev t e a v -> e a = Some v.
  Proof using Hnd. clear Hwf Hpass Hwf' Hnd'. intros Ha (w & Hw & H)%ev_unfold. assert (w = VGammaArg y) as -> by (eapply defs_fun; eauto). done. Qed.
  Lemma ev_targ e a o y v : (a, VThetaArg o y) ∈ defs t -> ev t e a v -> e a = Some v.
  Proof using Hnd. clear Hwf Hpass Hwf' Hnd'. intros Ha (w & Hw & H)%ev_unfold. assert (w = VThetaArg o y) as -> by (eapply defs_fun; eauto). done. Qed.

  (** R: any relation that only holds of values *)
  Section Pass.
    Context (R : env (V:=V) -> oid -> V -> Prop) (HR : forall e o v, R e o v -> ev t e o v).
    Lemma gamma_pass e o p brs v (la lz : list oid) : (o, VGamma p brs) ∈ defs t ->
      (forall i r c es, brs !! i = Some (r, c, es) -> forall e v, ev t e r v -> ev t e (nth i la 0) v) ->
      (forall i r c es, brs !! i = Some (r, c, es) -> (nth i la 0, nth i lz 0) ∈ es) ->
      eqn R e o (VGamma p brs) v -> exists i r c es, brs !! i = Some (r, c, es) /\ R e (nth i lz 0) v.
    Proof using Hwf Hnd HR.
      clear Hpass Hwf' Hnd'. intros Ho Hr Hin (pv & b & x & c & es & vs & Hpv & Hctl & Hb & Hes & Hx). exists b, x, c, es. split; [done|].
      pose proof (args_ok t o _ Hwf Hnd Ho) as Hargs. pose proof (elem_of_list_lookup_2 _ _ _ Hb) as Hbin. destruct (Hargs _ _ _ Hbin) as [Hn Ha].
      pose proof (Hin _ _ _ _ Hb) as Hc. apply HR in Hx. apply (Hr _ _ _ _ Hb) in Hx. apply (ev_garg _ _ (nth b lz 0)) in Hx; [|apply Ha; by right].
      rewrite bind_cons in Hx. apply NoDup_cons in Hn as [Hn1 Hn2].
      assert (Hxc : c <> nth b la 0). { intros ->. apply Hn1. apply elem_of_fst. eauto. }
      rewrite decide_False in Hx by done. pose proof (Forall2_length _ _ _ Hes) as Hl. rewrite fmap_length in Hl. apply bind_lookup in Hx as (i & Hi & Hvi); [|done|by rewrite fmap_length].
      apply elem_of_list_lookup in Hc as [j Hj]. assert (i = j) as ->. { eapply NoDup_lookup; [exact Hn2 | exact Hi | by rewrite list_lookup_fmap, Hj]. }
      destruct (Forall2_lookup_r _ _ _ _ _ Hes Hvi) as (z' & Hz' & HRz). rewrite list_lookup_fmap, Hj in Hz'. cbn in Hz'. by injection Hz' as <-.
    Qed.
    Lemma theta_pass e o p q x lvs a v : (o, VTheta p q x lvs) ∈ defs t -> (a, x, q) ∈ lvs -> (forall e v, ev t e q v -> ev t e a v) ->
      eqn R e o (VTheta p q x lvs) v -> R e x v.
    Proof using Hwf Hnd HR.
      clear Hpass Hwf' Hnd'. intros Ho Hin Hq (vs & Hv & HL). destruct (args_ok t o _ Hwf Hnd Ho) as (Hn & Ha & _). destruct (Ha _ _ _ Hin) as [out Hout].
      apply elem_of_list_lookup in Hin as [i Hi]. pose proof (Forall2_length _ _ _ Hv) as Hl. rewrite !fmap_length in Hl.
      assert (Hvi : vs !! i = Some v).
      { clear Hv. assert (Hl' : length lvs = length vs) by done. clear Hl. revert Hl'.
        assert (Hb : forall (vs : list V) u, length lvs = length vs -> R (bind (zip lvs.*1.*1 vs)) q u -> vs !! i = Some u).
        { intros us u Hlu Hu. apply HR, Hq in Hu. apply (ev_targ _ _ _ _ _ Hout) in Hu. apply bind_lookup in Hu as (j & Hj & Hvj); [|done|by rewrite !fmap_length].
          assert (j = i) as ->; [|done]. eapply NoDup_lookup; [exact Hn | exact Hj|]. by rewrite !list_lookup_fmap, Hi. }
        induction HL as [vs pv v H1 H2 H3 | vs pv ws v H1 H2 H3 H4 IH]; intros Hl.
        - by apply Hb.
        - assert (Hlw : length lvs = length ws) by (rewrite <-(Forall2_length _ _ _ H3); by rewrite fmap_length). specialize (IH Hlw).
          destruct (Forall2_lookup_r _ _ _ _ _ H3 IH) as (y' & Hy' & HRy). rewrite list_lookup_fmap, Hi in Hy'. cbn in Hy'. injection Hy' as <-. by apply Hb. }
      destruct (Forall2_lookup_r _ _ _ _ _ Hv Hvi) as (z' & Hz' & HRz). rewrite !list_lookup_fmap, Hi in Hz'. cbn in Hz'. by injection Hz' as <-.
    Qed.
    Lemma load_pass e o id op k ins z v : (o, VSimple id true op (S k) ins) ∈ defs t -> ins !! S k = Some z -> eqn R e o (VSimple id true op (S k) ins) v -> R e z v.
    Proof using Hpass.
      clear Hwf Hnd Hwf' Hnd' HR. intros Ho Hz (vs & ws & Hv & Hs & Hk). rewrite (Hpass _ _ _ _ _ _ _ Ho Hs) in Hk.
      destruct (Forall2_lookup_r _ _ _ _ _ Hv Hk) as (x' & Hx' & H). by assert (x' = z) as -> by congruence.
    Qed.
  End Pass.

  Lemma ev_view e o w v : (o, w) ∈ defs t -> ev t e o v -> eqn (ev t) e o w v.
  Proof using Hnd. clear Hwf Hpass Hwf' Hnd'. intros Ho (w' & Hw & H)%ev_unfold. by assert (w' = w) as -> by (eapply defs_fun; eauto). Qed.
  Lemma chase_ev x y : chase D x y -> forall e v, ev t e x v -> ev t e y v.
  Proof using Hwf Hnd Hpass.
    clear Hwf' Hnd'. intros H. induction H as [|o p brs la lz y H1 H2 IH2 H3 H4 IH4 | o p q i lvs a y H1 H2 H3 IH3 H4 IH4 | o id op k ins z y H1 H2 H3 IH3]; intros e v Hv; [done | | |].
    - pose proof (ev_view _ _ _ _ H1 Hv) as He. destruct (gamma_pass (ev t) ltac:(done) _ _ _ _ _ la lz H1 IH2 H3 He) as (i & r & c & es & Hi & Hz). eauto.
    - pose proof (ev_view _ _ _ _ H1 Hv) as He. apply IH4. by eapply (theta_pass (ev t)).
    - pose proof (ev_view _ _ _ _ H1 Hv) as He. apply IH3. by eapply (load_pass (ev t)).
  Qed.

  Context (Hsub : forall o w', (o, w') ∈ defs t' -> exists w, (o, w) ∈ defs t /\ vrel D w w').
  Definition sm (x y : oid) : Prop := chase D x y /\ y ∈ (defs t').*1.
  Lemma sm_list l l' w o : (o, w) ∈ defs t' -> (forall x, x ∈ l' -> x ∈ refs w) -> Forall2 (chase D) l l' -> Forall2 sm l l'.
  Proof using Hwf'.
    clear Hwf Hnd Hpass Hnd' Hsub. intros Ho Hr Hl. induction Hl as [|x y l l' Hx Hl IH]; constructor.
    - split; [done|]. eapply wf_refs; [done | exact Ho | apply Hr; left].
    - apply IH. intros z Hz. apply Hr. by right.
  Qed.
  Lemma sm_ref x y w o : (o, w) ∈ defs t' -> y ∈ refs w -> chase D x y -> sm x y.
  Proof using Hwf'. clear Hwf Hnd Hpass Hnd' Hsub. intros Ho Hy Hc. split; [done | by eapply wf_refs]. Qed.
  Lemma sm_arg a b : argument t a -> sm a b -> b = a.
  Proof using Hnd.
    clear Hwf Hpass Hwf' Hnd' Hsub. intros (w & Hw & Ha) [Hc _]. destruct Hc as [|o p brs la lz y H1 | o p q i lvs a y H1 | o id op k ins z y H1]; [done | | |]; pose proof (defs_fun _ _ _ _ Hnd Hw H1) as ->; done.
  Qed.
  Lemma refl_cond x w : x ∈ (defs t').*1 -> (x, w) ∈ defs t -> cond ctl content sem addr imp t t' sm x x w.
  Proof using Hwf Hnd Hwf' Hnd' Hsub.
    intros Hx' Hx. apply elem_of_fst in Hx' as [w' Hx']. assert (Hk' : x ∈ (defs t').*1) by (apply elem_of_fst; eauto). destruct (Hsub _ _ Hx') as (w0 & Hw0 & Hv). pose proof (defs_fun _ _ _ _ Hnd Hx Hw0) as <-.
    pose proof (args_ok t x w Hwf Hnd Hx) as Hargs. assert (Hsm : sm x x) by (split; [constructor | done]).
    destruct Hv as [id l op k ins ins' Hi | p p' brs brs' Hp Hb | y y' | p p' q q' i i' lvs lvs' Hp Hq Hl | o o' i i' | id a r r' Hr | | id r r' Hr | y y' Hy | id].
    - eapply cond_simple; [exact Hx'|]. by eapply sm_list.
    - eapply cond_gamma; [done | exact Hx' | eapply sm_ref; [exact Hx' | left | done] |]. intros b r c es Hbr.
      destruct (Forall2_lookup_l _ _ _ _ _ Hb Hbr) as ([[r' c'] es'] & Hbr' & Hr & Hc & Hes). cbn in Hr, Hc, Hes. subst c'. exists r', c, es'. split; [done|].
      assert (Hrefs : forall z, z ∈ r' :: es'.*2 -> z ∈ refs (VGamma p' brs')).
      { intros z Hz. cbn [refs]. right. apply elem_of_mjoin_map. exists (r', c, es'). split; [by eapply elem_of_list_lookup_2 | done]. }
      split; [eapply sm_ref; [exact Hx' | apply Hrefs; left | done]|]. pose proof (elem_of_list_lookup_2 _ _ _ Hbr) as Hin. destruct (Hargs _ _ _ Hin) as [Hn Ha].
      assert (Hfst : es'.*1 = es.*1). { clear -Hes. induction Hes as [|d d' l l' [H1 _] _ IH]; [done|]. rewrite !fmap_cons. by rewrite H1, IH. }
      split; [done|]. split; [by rewrite Hfst|]. split.
      + intros b0 y' Hb0. pose proof Hb0 as Hb1. apply elem_of_list_lookup in Hb0 as [j Hj]. destruct (Forall2_lookup_r _ _ _ _ _ Hes Hj) as ([a y] & Hay & H1 & H2). exists a, y. split; [by eapply elem_of_list_lookup_2|].
        eapply sm_ref; [exact Hx' | apply Hrefs; right | done]. apply elem_of_list_fmap. exists (b0, y'). done.
      + intros a b0 Harg Hs. rewrite (sm_arg _ _ Harg Hs). split; [done|]. intros y Hay. apply elem_of_list_lookup in Hay as [j Hj]. destruct (Forall2_lookup_l _ _ _ _ _ Hes Hj) as ([a' y'] & Hay & H1 & H2). cbn in H1, H2. subst a'.
        exists y'. apply elem_of_list_lookup_2 in Hay. split; [done|]. eapply sm_ref; [exact Hx' | apply Hrefs; right | done]. apply elem_of_list_fmap. exists (a, y'). done.
    - eapply cond_garg; [exact Hx | exact Hx' | done].
    - eapply cond_theta; [done | exact Hx' | eapply sm_ref; [exact Hx' | left | done] | eapply sm_ref; [exact Hx' | right; left | done] |]. destruct Hargs as (Hn & Ha & _).
      assert (Hfst : lvs'.*1.*1 = lvs.*1.*1). { clear -Hl. induction Hl as [|d d' l l' [H1 _] _ IH]; [done|]. rewrite !fmap_cons. by rewrite H1, IH. }
      assert (Hrefs : forall b x1 y1, (b, x1, y1) ∈ lvs' -> x1 ∈ refs (VTheta p' q' i' lvs') /\ y1 ∈ refs (VTheta p' q' i' lvs')).
      { intros b x1 y1 Hin. cbn [refs]. split; do 3 right; apply elem_of_app; [left | right].
        - apply elem_of_list_fmap. exists (b, x1). split; [done|]. apply elem_of_list_fmap. exists (b, x1, y1). done.
        - apply elem_of_list_fmap. exists (b, x1, y1). done. }
      split; [done|]. split; [by rewrite Hfst|]. split.
      + intros b x' y' Hb. destruct (Hrefs _ _ _ Hb) as [G1 G2]. apply elem_of_list_lookup in Hb as [j Hj]. destruct (Forall2_lookup_r _ _ _ _ _ Hl Hj) as ([[a x0] y0] & Hay & H1 & H2 & H3).
        exists a, x0, y0. split; [by eapply elem_of_list_lookup_2|]. split; by eapply sm_ref.
      + intros a b x0 y0 Harg Hs Hin. rewrite (sm_arg _ _ Harg Hs). apply elem_of_list_lookup in Hin as [j Hj]. destruct (Forall2_lookup_l _ _ _ _ _ Hl Hj) as ([[a' x'] y'] & Hay & H1 & H2 & H3). cbn in H1, H2, H3. subst a'.
        apply elem_of_list_lookup_2 in Hay. destruct (Hrefs _ _ _ Hay) as [G1 G2]. exists x', y'. split; [done|]. split; by eapply sm_ref.
    - eapply cond_targ; [exact Hx | exact Hx' | done].
    - eapply cond_lambda; exact Hx'.
    - eapply cond_farg; [exact Hx | exact Hx' | done].
    - eapply cond_delta; exact Hx'.
    - eapply cond_copy; [exact Hx' | eapply sm_ref; [exact Hx' | left | done]].
    - eapply cond_import; exact Hx'.
  Qed.
  Lemma chase_sim e x v : ev t e x v -> forall y, sm x y -> ev t' e y v.
  Proof using Hwf Hnd Hpass Hwf' Hnd' Hsub.
    intros H y Hy. eapply (sim ctl content sem addr imp t t' sm); [|exact H| |exact Hy].
    - intros x0 y0 w [Hc Hk] Hw e0 e0' v0 He0 He. set (R := hyp ctl content sem addr imp t t' sm) in He.
      assert (HR : forall e o v, R e o v -> ev t e o v) by (by intros ??? [? _]).
      assert (Hfin : forall z, chase D z y0 -> R e0 z v0 -> ev t' e0' y0 v0). { intros z Hz [_ Hz']. apply Hz'; [done | by split]. }
      pose proof Hc as Hc0. destruct Hc as [x0 | o p brs la lz y0 H1 H2 H3 H4 | o p q i lvs a y0 H1 H2 H3 H4 | o id op k ins z y0 H1 H2 H3]; [by apply (refl_cond x0 w Hk Hw e0 e0') | | |];
        pose proof (defs_fun _ _ _ _ Hnd Hw H1) as ->.
      + destruct (gamma_pass R HR e0 o p brs v0 la lz H1) as (i & r & c & es & Hi & Hz); [|done|done|].
        * intros i r c es Hi. by eapply chase_ev, H2.
        * eapply Hfin; [by eapply H4 | done].
      + eapply Hfin; [exact H4|]. eapply (theta_pass R HR); [exact H1 | exact H2 | by apply chase_ev | done].
      + eapply Hfin; [exact H3|]. by eapply (load_pass R).
    - intros a b v0 Ha Hab. by rewrite (sm_arg _ _ Ha Hab).
  Qed.
  Theorem chase_refines : Forall2 (chase D) (rres t) (rres t') -> refines ctl content sem addr imp t t'.
  Proof using Hwf Hnd Hpass Hwf' Hnd' Hsub.
    intros Hres. assert (Hl : forall l l', Forall2 sm l l' -> same_values ctl content sem addr imp t t' l l').
    { intros l l' H. eapply Forall2_impl; [exact H|]. intros x y Hxy e v Hev. by eapply chase_sim. }
    split.
    - apply Hl. clear -Hres Hwf'. assert (Hk : forall x, x ∈ rres t' -> x ∈ (defs t').*1) by (intros; by apply wf_res). induction Hres as [|x y l l' Hx _ IH]; constructor; [split; [done | apply Hk; left] |].
      apply IH. intros z Hz. apply Hk. by right.
    - intros o id a r' Ho. destruct (Hsub _ _ Ho) as (w & Hw & Hv). inversion Hv; subst. exists r. split; [done|]. apply Hl. by eapply sm_list.
    - intros o id r' Ho. destruct (Hsub _ _ Ho) as (w & Hw & Hv). inversion Hv; subst. exists r. split; [done|]. apply Hl. by eapply sm_list.
    - intros e o v Ho H. eapply chase_sim; [exact H|]. split; [constructor | done].
  Qed.
End Sound.
