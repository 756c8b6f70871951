(** How the equations before and after the pass are related, and why that preserves the values. *)
From stdpp Require Import base list list_numbers fin_sets gmap relations.
From Verif.Rvsdg Require Import Model Spec Sem Wf WfFacts.
From Verif.Dne Require Import Model Spec ProofsMark.

Section Rel.
  Context (t : region) (c : ctx).
  Definition liveo (o : oid) : Prop := exists w, (o, w) ∈ defs t /\ live c o w.
  (** memory states of removed loads *)
  Definition edge (o x : oid) : Prop := exists id op k ins, (o, VSimple id true op (S k) ins) ∈ defs t /\ id ∉ cnodes c /\ ins !! S k = Some x.
  Definition byp (o : oid) : Prop := exists id op k ins, (o, VSimple id true op (S k) ins) ∈ defs t /\ id ∉ cnodes c.
  Definition rsl (o o' : oid) : Prop := liveo o /\ rtc edge o o' /\ ~ byp o'.
  Inductive esrel : list (oid * oid) -> list (oid * oid) -> Prop :=
    | es_nil : esrel [] []
    | es_keep a x x' es es' : rsl x x' -> esrel es es' -> esrel ((a, x) :: es) ((a, x') :: es')
    | es_drop a x es es' : ~ liveo a -> esrel es es' -> esrel ((a, x) :: es) es'.
  Definition brel (b b' : oid * oid * list (oid * oid)) : Prop := rsl b.1.1 b'.1.1 /\ b.1.2 = b'.1.2 /\ esrel b.2 b'.2.
  Inductive lvrel : list (oid * oid * oid) -> list (oid * oid * oid) -> Prop :=
    | lv_nil : lvrel [] []
    | lv_keep a x x' y y' l l' : rsl x x' -> rsl y y' -> lvrel l l' -> lvrel ((a, x, y) :: l) ((a, x', y') :: l')
    | lv_drop a x y l l' : ~ liveo a -> lvrel l l' -> lvrel ((a, x, y) :: l) l'.
  Inductive vrel : view -> view -> Prop :=
    | v_simple id l op k ins ins' : Forall2 rsl ins ins' -> vrel (VSimple id l op k ins) (VSimple id l op k ins')
    | v_gamma p p' brs brs' : rsl p p' -> Forall2 brel brs brs' -> vrel (VGamma p brs) (VGamma p' brs')
    | v_garg x x' : rsl x x' -> vrel (VGammaArg x) (VGammaArg x')
    | v_theta p p' y y' x x' l l' : rsl p p' -> rsl y y' -> rsl x x' -> lvrel l l' -> vrel (VTheta p y x l) (VTheta p' y' x' l')
    | v_targ o x x' : rsl x x' -> vrel (VThetaArg o x) (VThetaArg o x')
    | v_lambda id a r r' : Forall2 rsl r r' -> vrel (VLambda id a r) (VLambda id a r')
    | v_farg : vrel VFunArg VFunArg
    | v_delta id r r' : Forall2 rsl r r' -> vrel (VDelta id r) (VDelta id r')
    | v_copy x x' : rsl x x' -> vrel (VCopy x) (VCopy x')
    | v_import id : vrel (VImport id) (VImport id).

  Context {V : Type} (ctl : V -> option nat) (content : V -> V) (sem : nat -> list V -> option (list V)) (addr imp : nat -> V).
  Local Notation eqn := (eqn ctl content sem addr imp).
  Local Notation ev := (ev ctl content sem addr imp).
  Definition agree (e e' : env (V:=V)) : Prop := forall a, liveo a -> e a = e' a.

  Section Sim.
    Context (R R' : env (V:=V) -> oid -> V -> Prop) (in' : oid -> Prop).
    Context (HR : forall e o v, R e o v -> forall e' o', agree e e' -> rsl o o' -> in' o' -> R' e' o' v).
    Lemma sim_list e e' l l' vs : agree e e' -> Forall2 rsl l l' -> Forall in' l' -> Forall2 (R e) l vs -> Forall2 (R' e') l' vs.
    Proof using HR.
      intros Ha Hl. revert vs. induction Hl; intros vs Hi Hv; inversion Hv; subst; [constructor|].
      apply Forall_cons in Hi as [? ?]. constructor; [eapply HR; eauto | eauto].
    Qed.
    Lemma bind_agree (l l' : list (oid * V)) a v : agree (bind l) (bind l') -> agree (bind ((a, v) :: l)) (bind ((a, v) :: l')).
    Proof using. clear. intros H b Hb. unfold bind in *. cbn. specialize (H b Hb). unfold bind in H.
      destruct (decide (a = b)) as [->|Hn]; [by rewrite !lookup_insert | by rewrite !lookup_insert_ne]. Qed.
    Lemma bind_drop (l l' : list (oid * V)) a v : ~ liveo a -> agree (bind l) (bind l') -> agree (bind ((a, v) :: l)) (bind l').
    Proof using. clear. intros Ha H b Hb. unfold bind in *. cbn. specialize (H b Hb). unfold bind in H. rewrite lookup_insert_ne; [done|]. intros ->. done. Qed.
    Lemma agree_refl e : agree e e.
    Proof using. clear. intros a _. done. Qed.
    Lemma sim_es e e' es es' vs : agree e e' -> esrel es es' -> Forall in' es'.*2 -> Forall2 (R e) es.*2 vs ->
      exists vs', Forall2 (R' e') es'.*2 vs' /\ agree (bind (zip es.*1 vs)) (bind (zip es'.*1 vs')).
    Proof using HR.
      intros Ha He. revert vs. induction He as [|a x x' es es' Hx He IH|a x es es' Hx He IH]; intros vs Hi Hv.
      - inversion Hv; subst. exists []. split; [constructor | apply agree_refl].
      - cbn in Hv, Hi. inversion Hv; subst. apply Forall_cons in Hi as [? ?]. destruct (IH l') as (vs' & Hv' & Hag); [done..|]. exists (y :: vs'). split.
        + constructor; [eapply HR; eauto | done].
        + cbn. by apply bind_agree.
      - cbn in Hv. inversion Hv; subst. destruct (IH l') as (vs' & Hv' & Hag); [done..|]. exists vs'. split; [done|]. cbn. by apply bind_drop.
    Qed.
    (** the values of the loop variables, those of the removed ones left out *)
    Inductive lvals : list (oid * oid * oid) -> list (oid * oid * oid) -> list V -> list V -> Prop :=
      | lvals_nil : lvals [] [] [] []
      | lvals_keep a x x' y y' v l l' vs vs' : rsl x x' -> rsl y y' -> lvals l l' vs vs' -> lvals ((a, x, y) :: l) ((a, x', y') :: l') (v :: vs) (v :: vs')
      | lvals_drop a x y v l l' vs vs' : ~ liveo a -> lvals l l' vs vs' -> lvals ((a, x, y) :: l) l' (v :: vs) vs'.
    Lemma lvals_agree l l' vs vs' : lvals l l' vs vs' -> agree (bind (zip l.*1.*1 vs)) (bind (zip l'.*1.*1 vs')).
    Proof using. clear. induction 1; [apply agree_refl | cbn; by apply bind_agree | cbn; by apply bind_drop]. Qed.
    Lemma lvals_init e e' l l' vs : agree e e' -> lvrel l l' -> Forall in' l'.*1.*2 -> Forall2 (R e) l.*1.*2 vs ->
      exists vs', Forall2 (R' e') l'.*1.*2 vs' /\ lvals l l' vs vs'.
    Proof using HR.
      intros Ha He. revert vs. induction He as [|a x x' y y' l l' Hx Hy He IH|a x y l l' Hx He IH]; intros vs Hi Hv.
      - inversion Hv; subst. exists []. split; constructor.
      - cbn in Hv, Hi. inversion Hv as [|? v ? vs0]; subst. apply Forall_cons in Hi as [? ?]. destruct (IH vs0) as (vs' & Hv' & Hag); [done..|]. exists (v :: vs'). split.
        + constructor; [eapply HR; eauto | done].
        + by constructor.
      - cbn in Hv. inversion Hv as [|? v ? vs0]; subst. destruct (IH vs0) as (vs' & Hv' & Hag); [done..|]. exists vs'. split; [done|]. by constructor.
    Qed.
    Lemma lvals_next e e' l l' vs vs' ws : agree e e' -> lvals l l' vs vs' -> Forall in' l'.*2 -> Forall2 (R e) l.*2 ws ->
      exists ws', Forall2 (R' e') l'.*2 ws' /\ lvals l l' ws ws'.
    Proof using HR.
      intros Ha He. revert ws. induction He as [|a x x' y y' v l l' vs vs' Hx Hy He IH|a x y v l l' vs vs' Hx He IH]; intros ws Hi Hv.
      - inversion Hv; subst. exists []. split; constructor.
      - cbn in Hv, Hi. inversion Hv as [|? w ? ws0]; subst. apply Forall_cons in Hi as [? ?]. destruct (IH ws0) as (ws' & Hv' & Hag); [done..|]. exists (w :: ws'). split.
        + constructor; [eapply HR; eauto | done].
        + by constructor.
      - cbn in Hv. inversion Hv as [|? w ? ws0]; subst. destruct (IH ws0) as (ws' & Hv' & Hag); [done..|]. exists ws'. split; [done|]. by constructor.
    Qed.
    Lemma sim_loop p p' y y' l l' vs vs' v : rsl p p' -> rsl y y' -> in' p' -> in' y' -> Forall in' l'.*2 -> lvals l l' vs vs' ->
      loop ctl R p y l vs v -> loop ctl R' p' y' l' vs' v.
    Proof using HR.
      intros Hp Hy Hip Hiy Hi Hl HL. revert vs' Hl. induction HL as [vs pv v H1 H2 H3 | vs pv ws v H1 H2 H3 H4 IH]; intros vs' Hl; pose proof (lvals_agree _ _ _ _ Hl) as Ha.
      - eapply loop_exit; [eapply HR; [exact H1 | eauto..] | exact H2 | eapply HR; [exact H3 | eauto..]].
      - destruct (lvals_next _ _ _ _ _ _ _ Ha Hl Hi H3) as (ws' & Hw' & Hl').
        eapply loop_next; [eapply HR; [exact H1 | eauto..] | exact H2 | exact Hw' | by apply IH].
    Qed.
    Lemma sim_eqn e e' o w w' v : agree e e' -> liveo o -> vrel w w' -> Forall in' (refs w') -> eqn R e o w v -> eqn R' e' o w' v.
    Proof using HR.
      intros Ha Ho Hw Hi. destruct Hw as [id l op k ins ins' Hins | p p' brs brs' Hp Hb | x x' Hx | p p' y y' x x' l l' Hp Hy Hx Hl | o0 x x' Hx | id a r r' Hr | | id r r' Hr | x x' Hx | id]; cbn [Spec.eqn refs] in *.
      - intros (vs & ws & Hv & ?). exists vs, ws. split; [|done]. eapply sim_list; eauto.
      - intros (pv & b & x & cc & es & vs & Hpv & Hc & Hbr & Hes & Hx).
        destruct (Forall2_lookup_l _ _ _ _ _ Hb Hbr) as ([[x' cc'] es'] & Hbr' & (Hx' & Hcc & Hee)). cbn in Hx', Hcc, Hee. subst cc'.
        apply Forall_cons in Hi as [Hip Hi].
        assert (Hi2 : in' x' /\ Forall in' es'.*2).
        { rewrite Forall_forall in Hi. assert (Hm : forall z, z ∈ x' :: es'.*2 -> in' z).
          { intros z Hz. apply Hi. apply elem_of_mjoin_map. exists (x', cc, es'). split; [eapply elem_of_list_lookup_2; exact Hbr' | exact Hz]. }
          split; [apply Hm; left | apply Forall_forall; intros z Hz; apply Hm; by right]. }
        destruct Hi2 as [Hi2 Hi3]. destruct (sim_es _ _ _ _ _ Ha Hee Hi3 Hes) as (vs' & Hes' & Hag).
        exists pv, b, x', cc, es', vs'. split; [eapply HR; [exact Hpv | done..]|]. do 2 (split; [done|]). split; [done|]. eapply HR; [exact Hx | by apply bind_agree | done | done].
      - rewrite (Ha o Ho). done.
      - intros (vs & Hv & HL). apply Forall_cons in Hi as [Hi1 Hi]. apply Forall_cons in Hi as [Hi2 Hi]. apply Forall_cons in Hi as [Hi3 Hi].
        apply Forall_app in Hi as [Hi4 Hi5]. destruct (lvals_init _ _ _ _ _ Ha Hl Hi4 Hv) as (vs' & Hv' & Hlv).
        exists vs'. split; [done|]. eapply sim_loop; eauto.
      - rewrite (Ha o Ho). done.
      - done.
      - rewrite (Ha o Ho). done.
      - done.
      - intros H. inversion Hi; subst. eapply HR; [exact H | apply agree_refl | assumption | assumption].
      - done.
    Qed.
  End Sim.

  Context (t' : region).
  Context (Hnd : NoDup (defs t).*1) (Hcl : closed t c).
  Context (Hrefs : forall y w x, (y, w) ∈ defs t' -> x ∈ refs w -> x ∈ (defs t').*1).
  Context (Hsim : forall o w', (o, w') ∈ defs t' -> exists w, (o, w) ∈ defs t /\ vrel w w').
  Context (Hpass : loads_pass_states sem t).
  Context (Hkeys : forall o w x, (o, w) ∈ defs t -> x ∈ refs w -> x ∈ (defs t).*1).
  Lemma lv_liveo x : x ∈ (defs t).*1 -> lv t c x -> liveo x.
  Proof using Hnd. clear Hcl Hrefs Hsim Hpass Hkeys. intros [w Hw]%elem_of_fst Hl. exists w. split; [done|]. apply Hl. by apply m_iff. Qed.
  Lemma edge_live o x : edge o x -> liveo o -> liveo x.
  Proof using Hnd Hcl Hkeys.
    clear Hrefs Hsim Hpass. intros (id & op & k & ins & Hd & Hn & Hx) (w & Hw & Hl). assert (w = VSimple id true op (S k) ins) as -> by (eapply defs_fun; eauto).
    destruct Hl as [?|(_ & _ & Ho)]; [done|]. apply lv_liveo; [eapply Hkeys; [exact Hd|]; cbn; by eapply elem_of_list_lookup_2|].
    destruct (Hcl _ _ Hd) as [_ H]. by eapply H.
  Qed.
  Lemma ev_preserved e o v : ev t e o v -> forall e' o', agree e e' -> rsl o o' -> o' ∈ (defs t').*1 -> ev t' e' o' v.
  Proof using Hnd Hcl Hrefs Hsim Hpass Hkeys.
    revert e o v. apply (ev_ind ctl content sem addr imp t (fun e o v => forall e' o', agree e e' -> rsl o o' -> o' ∈ (defs t').*1 -> ev t' e' o' v)).
    intros e o v (w & Hw & He) e' o' Ha (Hlo & Hr & Hb) Hin.
    destruct (rtc_inv _ _ Hr) as [<- | (x & Hox & Hxo)].
    - apply elem_of_fst in Hin as [w' Hw']. destruct (Hsim _ _ Hw') as (w0 & Hw0 & Hv). assert (w0 = w) as -> by (eapply defs_fun; eauto).
      apply ev_fold. exists w'. split; [done|].
      eapply (sim_eqn (fun e o v => ev t e o v /\ forall e' o', agree e e' -> rsl o o' -> o' ∈ (defs t').*1 -> ev t' e' o' v) _ (fun x => x ∈ (defs t').*1)); eauto.
      + intros e1 o1 v1 [_ H1]. exact H1.
      + apply Forall_forall. intros z Hz. by eapply Hrefs.
    - pose proof (edge_live _ _ Hox Hlo) as Hlx. destruct Hox as (id & op & k & ins & Hd & Hn & Hx).
      assert (w = VSimple id true op (S k) ins) as -> by (eapply defs_fun; eauto).
      destruct He as (vs & ws & Hvs & Hs & Hk). rewrite (Hpass _ _ _ _ _ _ _ Hd Hs) in Hk.
      destruct (Forall2_lookup_r _ _ _ _ _ Hvs Hk) as (x' & Hx' & [_ HI]). assert (x' = x) as -> by congruence.
      apply HI; [done | | done]. split; [done|]. done.
  Qed.
End Rel.
