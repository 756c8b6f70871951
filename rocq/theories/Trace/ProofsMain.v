(** Tracing: soundness and termination. *)
From stdpp Require Import base list list_numbers fin_sets gmap.
From Verif.Rvsdg Require Import Model Spec Sem Wf WfFacts Det Sim Local Args Refine Chase.
From Verif.Trace Require Import Model Spec ProofsOwners ProofsOrder ProofsThrough ProofsStep.

Section Main.
  Context {V : Type} (ctl : V -> option nat) (content : V -> V) (sem : nat -> list V -> option (list V)) (addr imp : nat -> V) (cfg : config) (t : region).
  Local Notation same := (same ctl content sem addr imp t).
  Local Notation ev := (ev ctl content sem addr imp t).
  Local Notation point := (point ctl content sem addr imp t).
  Local Notation frame := (region * env (V:=V))%type.
  Local Notation inter := (interproc cfg).
  Local Notation phi := (interproc cfg && enter_phi cfg).
  Local Notation leads := (leads (V:=V) t (interproc cfg) (interproc cfg && enter_phi cfg)).
  Context (Hwf : wf t).
  Context (Hload : loaded cfg = true -> passes sem (fun d => d ∈ defs t)).
  Context (Hbar : forall op vs ws, barrier cfg op = true -> sem op vs = Some ws -> ws !! 0 = vs !! 0).
  Context (Hshape : forall r n op, reg t r -> n ∈ rnodes r -> nkind n = Simple op -> barrier cfg op = true -> length (nouts n) = 1 /\ nins n <> []).
  Local Notation Hnd := (Hnd t Hwf).
  Local Notation Hw := (Hw t Hwf).

  Lemma point_tail f g st : point (f :: g :: st) -> point (g :: st).
  Proof using. clear. intros H. remember (f :: g :: st) as l eqn:El. revert f g st El. induction H; intros f0 g0 st0 El; try (injection El as <- <- <-; done); [done|]. injection El as <- <- <-. by eapply IHpoint. Qed.
  Lemma point_suffix st0 st f : point (st0 ++ f :: st) -> point (f :: st).
  Proof using. clear. induction st0 as [|g st0 IH]; [done|]. cbn [app]. intros H. apply IH. destruct st0; cbn [app] in *; by eapply point_tail. Qed.
  Lemma point_regs st : point st -> Forall (fun f => reg t f.1) st.
  Proof using.
    clear. induction 1 as [| r e st n p xs b s pv vs H IH Hn Hk Hi Hs | r e st n s vs H IH Hn Hk Hs | r e st n s e0 p qs pv vs H IH Hn Hk Hs | r e st n m s vs H IH Hn Hk Hs | r e st n s H IH Hn Hk Hs].
    - constructor; [constructor | done].
    - constructor; [|done]. inversion IH; subst. eapply reg_sub; [done | exact Hn | by eapply elem_of_list_lookup_2].
    - constructor; [|done]. inversion IH; subst. eapply reg_sub; [done | exact Hn | rewrite Hs; left].
    - inversion IH; subst. by constructor.
    - constructor; [|done]. inversion IH; subst. eapply reg_sub; [done | exact Hn | rewrite Hs; left].
    - constructor; [|done]. inversion IH; subst. eapply reg_sub; [done | exact Hn | rewrite Hs; left].
  Qed.
  Lemma point_head r e st : point ((r, e) :: st) -> reg t r.
  Proof using. intros H%point_regs. by inversion H. Qed.
  Lemma leads_refl st : leads st st.
  Proof using. clear. apply (leads_leave _ _ _ _ []); [done | by constructor]. Qed.
  Lemma leads_trans st st1 st2 : leads st st1 -> leads st1 st2 -> leads st st2.
  Proof using.
    clear. intros H1 H2. induction H2 as [st0 st2 E Hf | r e st2 n s H IH H3 H4 H5 H6]; [|by eapply leads_phi].
    revert st0 st2 E Hf. induction H1 as [st3 st1 -> Hf1 | r e st1 n s H IH H3 H4 H5 H6]; intros st0 st2 E Hf.
    - apply (leads_leave _ _ _ _ (st3 ++ st0)); [by rewrite <-app_assoc, <-E|]. intros Hi. apply Forall_app. auto.
    - destruct st0 as [|f st0]; cbn [app] in E; [subst; by eapply leads_phi|]. injection E as <- E. apply (IH st0 st2 E). intros Hi. specialize (Hf Hi). by inversion Hf.
  Qed.
  Lemma leads_point st f st' : point st -> leads st (f :: st') -> point (f :: st').
  Proof using.
    clear. intros Hp H. remember (f :: st') as l eqn:El. revert f st' El. induction H as [st0 st' -> Hf | r e st' n s H IH H3 H4 H5 H6]; intros f0 st1 El.
    - subst. by eapply point_suffix.
    - injection El as <- <-. eapply p_phi; [by apply (IH (r, e) st') | exact H4 | by left | done].
  Qed.
  Lemma args_nodup s : reg t s -> NoDup (rargs s).
  Proof using Hwf. intros Hs. destruct (reg_order t s Hs) as (l1 & l2 & E). pose proof (order_nodup t Hnd) as H. rewrite E in H. apply NoDup_app in H as (_ & _ & H). apply NoDup_app in H as (H & _ & _). by apply NoDup_app in H as (H & _ & _). Qed.
  Lemma bind_arg s (vs : list V) i a v : reg t s -> length (rargs s) = length vs -> rargs s !! i = Some a -> bind (zip (rargs s) vs) a = Some v -> vs !! i = Some v.
  Proof using Hwf.
    intros Hs Hl Hi Hb. apply bind_lookup in Hb as (j & Hj & Hv); [|by apply args_nodup | done]. assert (j = i) as ->; [|done]. eapply NoDup_lookup; [by apply args_nodup | exact Hj | exact Hi].
  Qed.
  (** who contains the region of an argument *)
  Lemma parent_unique r n b s i o r' n' b' : reg t r -> n ∈ rnodes r -> nsubs n !! b = Some s -> rargs s !! i = Some o -> reg t r' -> n' ∈ rnodes r' -> nsubs n' !! b' = Some s -> r' = r /\ n' = n /\ b' = b.
  Proof using Hwf. intros H1 H2 H3 H4 H5 H6 H7. assert (E : ArgumentOf r' n' b' s i = ArgumentOf r n b s i) by (by apply (owner_fun t Hnd o)). by injection E. Qed.
  Lemma arg_eqn e o w v : (o, w) ∈ defs t -> ev e o v -> eqn ctl content sem addr imp ev e o w v.
  Proof using Hwf. apply (view_eqn ctl content sem addr imp t Hnd). Qed.

  (** the argument of a branch has the value of the entry variable *)
  Lemma gamma_arg r n b s i a z e0 st v : reg t r -> n ∈ rnodes r -> nkind n = Gamma -> nsubs n !! b = Some s -> rargs s !! S i = Some a -> nins n !! S i = Some z ->
    point ((s, e0) :: st) -> ev e0 a v -> exists e st', st = (r, e) :: st' /\ ev e z v.
  Proof using Hwf.
    intros Hr Hn Hk Hb Ha Hz Hp Hv. pose proof (elem_of_list_lookup_2 _ _ _ Hb) as Hin. assert (Hs : reg t s) by (eapply reg_sub; eauto).
    assert (He : e0 a = Some v). { pose proof (node_arg_def t r n s (S i) a Hr Hn Hin Ha) as Hd. rewrite Hk in Hd. exact (arg_eqn _ _ _ _ Hd Hv). }
    remember ((s, e0) :: st) as l eqn:El. destruct Hp as [| r' e st' n' p xs b' s' pv vs H Hn' Hk' Hi' Hs' Hpv Hc Hvs | r' e st' n' s' vs H Hn' Hk' Hs' | r' e st' n' s' e1 p qs pv vs H Hn' Hk' Hs' | r' e st' n' m s' vs H Hn' Hk' Hs' | r' e st' n' s' H Hn' Hk' Hs'].
    - injection El as <- <- <-. done.
    - injection El as -> <- <-. pose proof (point_head _ _ _ H) as Hr'. destruct (parent_unique r n b s (S i) a r' n' b' Hr Hn Hb Ha Hr' Hn' Hs') as (-> & -> & ->). exists e, st'. split; [done|].
      rewrite Hi' in Hz. change (xs !! i = Some z) in Hz. destruct (Forall2_lookup_l _ _ _ _ _ Hvs Hz) as (v' & Hv' & Hev). assert (v' = v) as <-; [|done].
      assert (Hla : length (rargs s) = length (nins n)). { pose proof (wfn t Hw r n Hr Hn) as Hwn. destruct n as [id kk ins outs sb]. cbn [nkind] in Hk. subst kk. apply wf_node_unfold in Hwn as [[_ Hsh] _]. rewrite Forall_forall in Hsh. by apply Hsh. }
      assert (E : (content pv :: vs) !! S i = Some v); [|change (vs !! i = Some v) in E; congruence]. eapply (bind_arg s); [done | | exact Ha | done]. cbn. rewrite <-(Forall2_length _ _ _ Hvs), Hla, Hi'. done.
    - injection El as -> <- <-. pose proof (point_head _ _ _ H) as Hr'. destruct (parent_unique r n b s (S i) a r' n' 0 Hr Hn Hb Ha Hr' Hn' ltac:(by rewrite Hs')) as (-> & -> & _). congruence.
    - injection El as -> <- <-. pose proof (point_head _ _ _ (point_tail _ _ _ H)) as Hr'. destruct (parent_unique r n b s (S i) a r' n' 0 Hr Hn Hb Ha Hr' Hn' ltac:(by rewrite Hs')) as (-> & -> & _). congruence.
    - injection El as -> <- <-. pose proof (point_head _ _ _ H) as Hr'. destruct (parent_unique r n b s (S i) a r' n' 0 Hr Hn Hb Ha Hr' Hn' ltac:(by rewrite Hs')) as (-> & -> & _). congruence.
    - injection El as -> <- <-. pose proof (point_head _ _ _ H) as Hr'. destruct (parent_unique r n b s (S i) a r' n' 0 Hr Hn Hb Ha Hr' Hn' ltac:(by rewrite Hs')) as (-> & -> & _). destruct Hk'; congruence.
  Qed.
  (** a loop variable that does not change *)
  Section Theta.
    Context (r : region) (n : node) (s : region) (Hr : reg t r) (Hn : n ∈ rnodes r) (Hk : nkind n = Theta) (Hsub : nsubs n = [s]).
    Context (j : nat) (a z y : oid) (Ha : rargs s !! j = Some a) (Hz : nins n !! j = Some z) (Hy : rres s !! S j = Some y) (Hya : same y a).
    Lemma theta_shape : length (rargs s) = length (nins n) /\ length (nins n) = length (nouts n) /\ length (rres s) = S (length (nouts n)).
    Proof using Hwf Hr Hn Hk Hsub.
      clear -Hwf Hr Hn Hk Hsub. pose proof (wfn t Hw r n Hr Hn) as Hwn. destruct n as [id kk ins outs sb]. cbn [nkind nsubs nins nouts] in *. subst kk sb. apply wf_node_unfold in Hwn as [(s' & [= <-] & Hsh) _]. done.
    Qed.
    Lemma sreg : reg t s.
    Proof using Hr Hn Hsub. clear -Hr Hn Hsub. eapply reg_sub; [exact Hr | exact Hn | rewrite Hsub; left]. Qed.
    (** the points within the body *)
    Lemma body_ind (P : env (V:=V) -> env (V:=V) -> Prop) st e0 i a' : rargs s !! i = Some a' -> point ((s, e0) :: st) ->
      (forall e vs, Forall2 (ev e) (nins n) vs -> P e (bind (zip (rargs s) vs))) ->
      (forall e e1 p qs vs, P e e1 -> rres s = p :: qs -> Forall2 (ev e1) qs vs -> P e (bind (zip (rargs s) vs))) ->
      exists e st', st = (r, e) :: st' /\ P e e0.
    Proof using Hwf Hr Hn Hk Hsub.
      clear Ha Hz Hy Hya a z y. intros Ha Hp H1 H2. remember ((s, e0) :: st) as l eqn:El. revert e0 st El. assert (Hb : nsubs n !! 0 = Some s) by (by rewrite Hsub).
      induction Hp as [| r' e st' n' p xs b' s' pv vs H IH Hn' Hk' Hi' Hs' Hpv Hc Hvs | r' e st' n' s' vs H IH Hn' Hk' Hs' Hvs | r' e st' n' s' e1 p qs pv vs H IH Hn' Hk' Hs' Hq Hpv Hc Hvs | r' e st' n' m s' vs H IH Hn' Hk' Hs' | r' e st' n' s' H IH Hn' Hk' Hs']; intros e0 st El.
      - exfalso. injection El as <- _ _. assert (E : RootArgument = ArgumentOf r n 0 t i); [|done]. apply (owner_fun t Hnd a'); [|done]. cbn. by eapply elem_of_list_lookup_2.
      - injection El as -> <- <-. pose proof (point_head _ _ _ H) as Hr'. destruct (parent_unique r n 0 s i a' r' n' b' Hr Hn Hb Ha Hr' Hn' Hs') as (-> & -> & ->). congruence.
      - injection El as -> <- <-. pose proof (point_head _ _ _ H) as Hr'. destruct (parent_unique r n 0 s i a' r' n' 0 Hr Hn Hb Ha Hr' Hn' ltac:(by rewrite Hs')) as (-> & -> & _). exists e, st'. split; [done|]. by apply H1.
      - injection El as -> <- <-. pose proof (point_head _ _ _ (point_tail _ _ _ H)) as Hr'. destruct (parent_unique r n 0 s i a' r' n' 0 Hr Hn Hb Ha Hr' Hn' ltac:(by rewrite Hs')) as (-> & -> & _).
        destruct (IH e1 ((r, e) :: st') eq_refl) as (e' & st'' & [= <- <-] & HP). exists e, st'. split; [done|]. by eapply H2.
      - injection El as -> <- <-. pose proof (point_head _ _ _ H) as Hr'. destruct (parent_unique r n 0 s i a' r' n' 0 Hr Hn Hb Ha Hr' Hn' ltac:(by rewrite Hs')) as (-> & -> & _). congruence.
      - injection El as -> <- <-. pose proof (point_head _ _ _ H) as Hr'. destruct (parent_unique r n 0 s i a' r' n' 0 Hr Hn Hb Ha Hr' Hn' ltac:(by rewrite Hs')) as (-> & -> & _). destruct Hk'; congruence.
    Qed.
    Lemma arg_value e i a' v : rargs s !! i = Some a' -> ev e a' v -> e a' = Some v.
    Proof using Hwf Hr Hn Hk Hsub.
      clear Ha Hz Hy Hya. intros Ha Hv. pose proof (node_arg_def t r n s i a' Hr Hn ltac:(rewrite Hsub; left) Ha) as Hd. rewrite Hk in Hd. exact (arg_eqn _ _ _ _ Hd Hv).
    Qed.
    Lemma first_value e vs i a' z' v : Forall2 (ev e) (nins n) vs -> rargs s !! i = Some a' -> nins n !! i = Some z' -> bind (zip (rargs s) vs) a' = Some v -> ev e z' v.
    Proof using Hwf Hr Hn Hk Hsub.
      clear Ha Hz Hy Hya. intros Hvs Ha Hz Hb. destruct theta_shape as (L1 & L2 & L3). assert (Hv : vs !! i = Some v). { eapply (bind_arg s); [apply sreg | rewrite L1; by eapply Forall2_length | exact Ha | done]. }
      destruct (Forall2_lookup_r _ _ _ _ _ Hvs Hv) as (z0 & Hz0 & Hev). rewrite Hz0 in Hz. injection Hz as ->. done.
    Qed.
    Lemma next_value e1 p qs vs i a' q v : rres s = p :: qs -> Forall2 (ev e1) qs vs -> rargs s !! i = Some a' -> rres s !! S i = Some q -> bind (zip (rargs s) vs) a' = Some v -> ev e1 q v.
    Proof using Hwf Hr Hn Hk Hsub.
      clear Ha Hz Hy Hya. intros Hres Hvs Ha Hq Hb. destruct theta_shape as (L1 & L2 & L3). rewrite Hres in L3, Hq. cbn in L3. change (qs !! i = Some q) in Hq.
      assert (Hv : vs !! i = Some v). { eapply (bind_arg s); [apply sreg | rewrite <-(Forall2_length _ _ _ Hvs); lia | exact Ha | done]. }
      destruct (Forall2_lookup_r _ _ _ _ _ Hvs Hv) as (z0 & Hz0 & Hev). rewrite Hz0 in Hq. injection Hq as ->. done.
    Qed.
    Lemma theta_arg k q a' st e0 v : rargs s !! k = Some a' -> nins n !! k = Some z -> rres s !! S k = Some q -> same q a -> point ((s, e0) :: st) -> ev e0 a' v ->
      exists e st', st = (r, e) :: st' /\ ev e z v.
    Proof using Hwf Hr Hn Hk Hsub Ha Hz Hy Hya.
      intros Ha' Hz' Hq Hqa Hp Hv. apply (arg_value e0 k a' v Ha') in Hv. revert v Hv.
      assert (G : exists e st', st = (r, e) :: st' /\ (forall v, e0 a = Some v -> ev e z v) /\ (forall v, e0 a' = Some v -> ev e z v)).
      { apply (body_ind (fun e e0 => (forall v, e0 a = Some v -> ev e z v) /\ (forall v, e0 a' = Some v -> ev e z v)) st e0 k a' Ha' Hp).
        - intros e vs Hvs. split; intros v Hv; [by eapply (first_value e vs j a) | by eapply (first_value e vs k a')].
        - intros e e1 p qs vs [IH1 _] Hres Hvs. split; intros v Hv.
          + pose proof (next_value e1 p qs vs j a y v Hres Hvs Ha Hy Hv) as Hev. apply Hya in Hev. by apply IH1, (arg_value e1 j).
          + pose proof (next_value e1 p qs vs k a' q v Hres Hvs Ha' Hq Hv) as Hev. apply Hqa in Hev. by apply IH1, (arg_value e1 j). }
      destruct G as (e & st' & -> & _ & G). intros v Hv. exists e, st'. auto.
    Qed.
  End Theta.
  (** the region around a region with arguments *)
  Lemma ctx_parent r n b s i a e0 st : reg t r -> n ∈ rnodes r -> nsubs n !! b = Some s -> rargs s !! i = Some a -> point ((s, e0) :: st) -> exists e st', st = (r, e) :: st'.
  Proof using Hwf.
    intros Hr Hn Hb Ha Hp. remember ((s, e0) :: st) as l eqn:El.
    destruct Hp as [| r' e st' n' p xs b' s' pv vs H Hn' Hk' Hi' Hs' Hpv Hc Hvs | r' e st' n' s' vs H Hn' Hk' Hs' | r' e st' n' s' e1 p qs pv vs H Hn' Hk' Hs' | r' e st' n' m s' vs H Hn' Hk' Hs' | r' e st' n' s' H Hn' Hk' Hs'].
    - exfalso. injection El as <- _ _. assert (E : RootArgument = ArgumentOf r n b t i); [|done]. apply (owner_fun t Hnd a); [|done]. cbn. by eapply elem_of_list_lookup_2.
    - injection El as -> <- <-. pose proof (point_head _ _ _ H) as Hr'. destruct (parent_unique r n b s i a r' n' b' Hr Hn Hb Ha Hr' Hn' Hs') as (-> & _ & _). eauto.
    - injection El as -> <- <-. pose proof (point_head _ _ _ H) as Hr'. destruct (parent_unique r n b s i a r' n' 0 Hr Hn Hb Ha Hr' Hn' ltac:(by rewrite Hs')) as (-> & _ & _). eauto.
    - injection El as -> <- <-. pose proof (point_head _ _ _ (point_tail _ _ _ H)) as Hr'. destruct (parent_unique r n b s i a r' n' 0 Hr Hn Hb Ha Hr' Hn' ltac:(by rewrite Hs')) as (-> & _ & _). eauto.
    - injection El as -> <- <-. pose proof (point_head _ _ _ H) as Hr'. destruct (parent_unique r n b s i a r' n' 0 Hr Hn Hb Ha Hr' Hn' ltac:(by rewrite Hs')) as (-> & _ & _). eauto.
    - injection El as -> <- <-. pose proof (point_head _ _ _ H) as Hr'. destruct (parent_unique r n b s i a r' n' 0 Hr Hn Hb Ha Hr' Hn' ltac:(by rewrite Hs')) as (-> & _ & _). eauto.
  Qed.

  (** what a region pointer points to *)
  Definition at_region (w : option (nat * nat)) (s : region) : Prop := exists id b, w = Some (id, b) /\ subregion t id b s.
  Definition moves (w : option (nat * nat)) (o x : oid) : Prop := forall r e st v, point ((r, e) :: st) -> owns r o -> ev e o v -> exists r' e' st',
    leads ((r, e) :: st) ((r', e') :: st') /\ owns r' x /\ ev e' x v /\ (forall s, at_region w s -> s ∈ ((r, e) :: st).*1 -> s ∈ ((r', e') :: st').*1).
  Lemma moves_same w o x : (forall r, reg t r -> owns r o -> owns r x) -> same o x -> moves w o x.
  Proof using. clear. intros H1 H2 r e st v Hp Ho Hv. exists r, e, st. split; [apply leads_refl|]. split; [apply H1; [by eapply point_head | done]|]. split; [by apply H2 | done]. Qed.
  Lemma moves_trans w o x y : moves w o x -> moves w x y -> moves w o y.
  Proof using.
    clear. intros H1 H2 r e st v Hp Ho Hv. destruct (H1 r e st v Hp Ho Hv) as (r1 & e1 & st1 & L1 & O1 & V1 & W1). destruct (H2 r1 e1 st1 v) as (r2 & e2 & st2 & L2 & O2 & V2 & W2); [by eapply leads_point | done | done|].
    exists r2, e2, st2. split; [by eapply leads_trans|]. auto.
  Qed.
  (** leaving the region of an argument *)
  Lemma moves_out w r n b s i o x : reg t r -> n ∈ rnodes r -> nsubs n !! b = Some s -> rargs s !! i = Some o -> owns r x -> w <> Some (nid n, b) -> (inter = false -> nkind n = Gamma \/ nkind n = Theta) ->
    (forall e0 st v, point ((s, e0) :: st) -> ev e0 o v -> exists e st', st = (r, e) :: st' /\ ev e x v) -> moves w o x.
  Proof using Hwf.
    intros Hr Hn Hb Hi Hx Hne Hbl H r0 e0 st v Hp Ho Hv. pose proof (elem_of_list_lookup_2 _ _ _ Hb) as Hin. assert (Hs : reg t s) by (eapply reg_sub; eauto).
    assert (r0 = s) as ->. { eapply (region_unique t Hwf _ _ o); [by eapply point_head | done | done | left; by eapply elem_of_list_lookup_2]. }
    destruct (H e0 st v Hp Hv) as (e & st' & -> & Hev). exists r, e, st'. split; [|split; [done|]; split; [done|]].
    - apply (leads_leave _ _ _ _ [(s, e0)]); [done|]. intros Hinter. constructor; [|constructor]. exists r, n. split; [by apply reg_region_of|]. auto.
    - intros s' (id & b' & -> & (r1 & n1 & Hr1 & Hn1 & <- & Hb1)) Hin'. apply elem_of_cons in Hin' as [->|?]; [|done]. exfalso. apply Hne. cbn [fst] in *.
      destruct (parent_unique r n b s i o r1 n1 b' Hr Hn Hb Hi ltac:(by apply reg_region_of) Hn1 Hb1) as (_ & -> & ->). done.
  Qed.

  Local Notation L := (length (owners t)).
  Local Notation Inv := (Inv ctl content sem addr imp t).
  Local Notation safe := (safe t).
  Local Notation mc := (mc t).
  Lemma rank_le r o : reg t r -> owns r o -> rank t o < L.
  Proof using Hwf. intros Hr Ho. apply rank_bound. by eapply owns_key. Qed.
  Lemma base_ok F r o w c : reg t r -> owns r o -> L <= F -> Inv c ->
    match base_step cfg t (trace_fuel cfg t F) w o c with
    | Done (x, c') => (exists r', reg t r' /\ owns r' x) /\ moves w o x /\ (x = o \/ rank t x < rank t o) /\ Inv c' /\ (safe -> ~ mc o -> ~ mc x)
    | Failed => ~ (safe /\ ~ mc o)
    | Fuel => False
    end.
  Proof using Hwf Hload Hbar Hshape.
    intros Hr Ho HF Hi. pose proof (within_ok ctl content sem addr imp cfg t Hwf Hload Hbar Hshape F) as HRA.
    destruct (owns_owner t Hwf r o Hr Ho) as [(m & k & Hm & Hk & Hown)|[(-> & Hin & Hown)|(q & m & b & i & Hq & Hm & Hb & Ha & Hown)]].
    - pose proof (rank_le r o Hr Ho) as Hle. pose proof (out_step ctl content sem addr imp cfg t Hwf _ F HRA r m k o w c Hr Hm Hk ltac:(lia) Hi) as H. destruct (base_step _ _ _ _ _ _) as [[x c']| |] eqn:Eb; [|tauto|done].
      destruct H as (H1 & H2 & H3 & H4 & _ & H6). split.
      { destruct H1 as [H1|(s & Hk1 & Hs1 & H1)]; [eauto|]. exists s. split; [|done]. eapply reg_sub; [exact Hr | exact Hm | rewrite Hs1; left]. }
      split; [|auto]. destruct H1 as [H1|(s & Hk1 & Hs1 & H1)].
      + apply moves_same; [|done]. intros r' Hr' Ho'. by rewrite (region_unique t Hwf r' r o Hr' Hr Ho' Ho).
      + assert (Hreg : reg t s) by (eapply reg_sub; [exact Hr | exact Hm | rewrite Hs1; left]).
        unfold base_step in Eb. rewrite Hown, Hk1, Hs1 in Eb. destruct phi eqn:Ephi.
        * destruct (rres s !! k) as [x'|] eqn:Ex; [|done]. injection Eb as -> ->. destruct (phi_node ctl content sem addr imp t Hnd r m Hr Hm s k o x Hk1 Hs1 Hk Ex) as [_ G].
          intros r' e st v Hp Ho' Hv. rewrite (region_unique t Hwf r' r o (point_head _ _ _ Hp) Hr Ho' Ho) in *. exists s, emp, ((r, e) :: st). split; [eapply leads_phi; [apply leads_refl | done | done | done | done]|].
          split; [done|]. split; [by eapply G|]. intros s0 _ Hin. by right.
        * injection Eb as <- <-. apply moves_same; [done | apply same_refl].
    - unfold base_step. rewrite Hown. split; [eauto|]. split; [apply moves_same; [done | apply same_refl]|]. split; [by left|]. done.
    - unfold base_step. rewrite Hown. pose proof (elem_of_list_lookup_2 _ _ _ Hb) as Hin.
      assert (Hstay : forall c', Inv c' -> (exists r', reg t r' /\ owns r' o) /\ moves w o o /\ (o = o \/ rank t o < rank t o) /\ Inv c' /\ (safe -> ~ mc o -> ~ mc o)).
      { intros c' Hi'. split; [eauto|]. split; [apply moves_same; [done | apply same_refl]|]. split; [by left|]. done. }
      pose proof (Hstay c Hi) as Hstay0. case_decide as Hne; [done|].
      assert (Hgo : forall j x c', Inv c' -> nins m !! j = Some x -> (inter = false -> nkind m = Gamma \/ nkind m = Theta) -> (forall e0 st v, point ((r, e0) :: st) -> ev e0 o v -> exists e st', st = (q, e) :: st' /\ ev e x v) ->
        (exists r', reg t r' /\ owns r' x) /\ moves w o x /\ (x = o \/ rank t x < rank t o) /\ Inv c' /\ (safe -> ~ mc o -> ~ mc x)).
      { intros j x c' Hi' Hx Hint G. apply elem_of_list_lookup_2 in Hx. pose proof (ins_owned t Hwf q m x Hq Hm Hx) as Hox. split; [eauto|]. split; [by eapply (moves_out w q m b r i)|].
        split; [right; eapply (rank_in t Hw Hnd q m); [done | done | done|]; eapply sub_norder; [exact Hin | apply elem_of_app; left; by eapply elem_of_list_lookup_2]|]. split; [done|]. intros Hsf _. by eapply (in_not_mc t Hwf q m). }
      assert (Hctx : forall x, (exists m0, nkind m = Lambda m0 /\ m0 <= i /\ nins m !! (i - m0) = Some x) \/ (nkind m = Delta /\ nins m !! i = Some x) \/ (nkind m = Phi /\ length (rres r) <= i /\ nins m !! (i - length (rres r)) = Some x) ->
        inter = true -> (exists r', reg t r' /\ owns r' x) /\ moves w o x /\ (x = o \/ rank t x < rank t o) /\ Inv c /\ (safe -> ~ mc o -> ~ mc x)).
      { intros x Hx Hint. destruct (ctx_step ctl content sem addr imp t Hwf q m b r i o c Hq Hm Hb Ha x Hx) as (_ & _ & G & _). assert (Hj : exists j, nins m !! j = Some x) by (destruct Hx as [(m0 & _ & _ & Hx)|[(_ & Hx)|(_ & _ & Hx)]]; eauto).
        destruct Hj as [j Hj]. apply (Hgo j x c Hi Hj); [by rewrite Hint|]. intros e0 st v Hp Hv. destruct (ctx_parent q m b r i o e0 st Hq Hm Hb Ha Hp) as (e & st' & ->). exists e, st'. split; [done|]. by eapply G. }
      pose proof (lookup_lt_Some _ _ _ Ha) as Hlt. pose proof (wfn t Hw q m Hq Hm) as Hwn.
      destruct (nkind m) as [op|op| | |k| |] eqn:Ek; try done.
      + destruct i as [|i]; cbn [map_branch_argument obind]; [intros [_ H]; apply H; exists q, m, b, r; done|].
        destruct (nins m !! S i) as [x|] eqn:Ex; cbn [obind].
        * apply (Hgo (S i) x c Hi Ex); [auto|]. intros e0 st v Hp Hv. by eapply (gamma_arg q m b r i o x e0 st v).
        * exfalso. apply lookup_ge_None in Ex. destruct m as [id kk ins outs sb]. cbn [nkind nsubs nins] in *. subst kk. apply wf_node_unfold in Hwn as [[_ Hsh] _]. rewrite Forall_forall in Hsh. destruct (Hsh r Hin) as [? _]. lia.
      + assert (Hsub : nsubs m = [r]). { destruct m as [id kk ins outs sb]. cbn [nkind nsubs nins] in *. subst kk. apply wf_node_unfold in Hwn as [(s & -> & _) _]. apply elem_of_list_singleton in Hin as ->. done. }
        destruct (theta_shape q m r Hq Hm Ek Hsub) as (L1 & L2 & L3). destruct (lookup_lt_is_Some_2 (nins m) i) as [x Hx]; [lia|]. destruct (lookup_lt_is_Some_2 (nouts m) i) as [out Hout]; [lia|]. rewrite Hx, Hout.
        assert (Hro : rank t out < L). { apply (rank_le q); [done|]. right. exists m. split; [done | by eapply elem_of_list_lookup_2]. }
        pose proof (try_theta_ok ctl content sem addr imp cfg t Hwf _ F HRA q m i out c Hq Hm Ek Hout ltac:(lia) Hi) as H. destruct (try_theta _ _ _ _ _ _ _) as [[y c']| |]; cbn [obind]; [|tauto|done].
        destruct H as (He & Hi' & _). destruct (decide (y = Some x)) as [->|]; [|by apply Hstay]. destruct (He x eq_refl) as (_ & _ & Hth). destruct (Hth Ek) as (s & j & a & y & qk & Hs' & Hqk & Haj & Hzj & Hyj & Hya & Hqa).
        rewrite Hsub in Hs'. injection Hs' as <-. apply (Hgo i x c' Hi' Hx); [auto|]. intros e0 st v Hp Hv. by eapply (theta_arg q m r Hq Hm Ek Hsub j a x y Haj Hzj Hyj Hya i qk o st e0 v).
      + destruct inter eqn:Ei; [|done]. cbn [andb]. case_bool_decide as Hle; [|done].
        assert (Hl : length (rargs r) = k + length (nins m)). { destruct m as [id kk ins outs sb]. cbn [nkind nsubs nins] in *. subst kk. apply wf_node_unfold in Hwn as [(s & -> & Hl & _) _]. apply elem_of_list_singleton in Hin as ->. done. }
        destruct (lookup_lt_is_Some_2 (nins m) (i - k)) as [x Hx]; [lia|]. rewrite Hx. apply Hctx; [|done]. left. eauto.
      + destruct inter eqn:Ei; [|done]. cbn [andb]. case_bool_decide as Hle; [|done].
        assert (Hl : length (rargs r) = length (nouts m) + length (nins m) /\ length (rres r) = length (nouts m)). { destruct m as [id kk ins outs sb]. cbn [nkind nsubs nins nouts] in *. subst kk. apply wf_node_unfold in Hwn as [(s & -> & Hl & Hl2) _]. apply elem_of_list_singleton in Hin as ->. done. }
        destruct (lookup_lt_is_Some_2 (nins m) (i - length (rres r))) as [x Hx]; [lia|]. rewrite Hx. apply Hctx; [|done]. right. right. auto.
      + destruct inter eqn:Ei; [|done]. assert (Hl : length (rargs r) = length (nins m)). { destruct m as [id kk ins outs sb]. cbn [nkind nsubs nins nouts] in *. subst kk. apply wf_node_unfold in Hwn as [(s & -> & Hl & _) _]. apply elem_of_list_singleton in Hin as ->. done. }
        destruct (lookup_lt_is_Some_2 (nins m) i) as [x Hx]; [lia|]. rewrite Hx. apply Hctx; [|done]. right. left. done.
  Qed.
  Lemma trace_ok F r o w c : reg t r -> owns r o -> rank t o + L < F -> Inv c ->
    match trace_fuel cfg t F w o c with
    | Done (x, c') => (exists r', reg t r' /\ owns r' x) /\ moves w o x /\ Inv c' /\ (safe -> ~ mc o -> ~ mc x)
    | Failed => ~ (safe /\ ~ mc o)
    | Fuel => False
    end.
  Proof using Hwf Hload Hbar Hshape.
    revert r o c. induction F as [|F IH]; intros r o c Hr Ho HF Hi; [lia|]. cbn [trace_fuel]. rewrite trace_step_eq.
    pose proof (base_ok F r o w c Hr Ho ltac:(lia) Hi) as HB. destruct (base_step _ _ _ _ _ _) as [[x c']| |]; cbn [obind]; [|done|done]. destruct HB as ((r1 & Hr1 & Hx) & H2 & H3 & H4 & H6).
    destruct (llvm_ok ctl content sem addr imp cfg t Hwf Hload Hbar Hshape r1 x c' Hr1 Hx) as (y & -> & Hy & G2 & G3 & G4). cbn [obind]. destruct (decide (y = o)) as [->|Hyo].
    - split; [eauto|]. split; [apply moves_same; [done | apply same_refl]|]. auto.
    - assert (Hlt : rank t y + L < F). { destruct H3 as [->|H3], G3 as [->|G3]; try done; lia. }
      assert (Hmv : moves w o y). { eapply moves_trans; [exact H2|]. apply moves_same; [|done]. intros r' Hr' Ho'. by rewrite (region_unique t Hwf r' r1 x Hr' Hr1 Ho' Hx). }
      specialize (IH r1 y c' Hr1 Hy Hlt H4). destruct (trace_fuel cfg t F _ y c') as [[z c'']| |]; [|intros [G6 G7]; apply IH; split; [done|]; auto|done].
      destruct IH as (I1 & I2 & I3 & I5). split; [done|]. split; [by eapply moves_trans|]. split; [done|]. auto.
  Qed.
End Main.
