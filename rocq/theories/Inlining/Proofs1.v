(** The structural nodes on the way to a call: what they compute when values are routed through them. *)
From stdpp Require Import base list gmap.
From Coq Require Import ZArith Lia.
From Verif.LocalRegion Require Import Model Spec Facts.
From Verif.Unswitch Require Import Model Spec Proofs1 Proofs2 Proofs3.
From Verif.Sinking Require Import Spec.
From Verif.Hoisting Require Import Model Spec Proofs1.
Open Scope nat_scope.

Section Sem.
  Context (other : nat -> list val -> option (list val)) (content : val -> val).
  Notation hold := (hold other content).
  Notation holds := (holds other content).
  Notation runs := (runs other content).
  Notation loops := (loops other content).

  Section Body.
    Context (s s' : region) (nv : list val).
    Let a : list nat := seq (region_bound s) (length nv).
    Definition fwd : Prop := forall rho, hold rho (rnodes s) -> map rho a = nv -> exists rho', map rho' (rargs s ++ a) = map rho (rargs s ++ a) /\ hold rho' (rnodes s') /\ map rho' (rres s') = map rho (rres s).
    Definition bwd : Prop := forall rho, hold rho (rnodes s') -> map rho a = nv -> exists rho', map rho' (rargs s ++ a) = map rho (rargs s ++ a) /\ hold rho' (rnodes s) /\ map rho' (rres s) = map rho (rres s').
    Hypothesis s_wf : wf_region s.
    Lemma fresh x : x ∈ names s -> x ∉ a.
    Proof. intros Hx Hin. apply region_bound_ok in Hx. apply seq_new in Hin. lia. Qed.
    Lemma body_fwd vs us : fwd -> runs s vs us ->
      exists rho', map rho' (rargs s) = vs /\ map rho' a = nv /\ hold rho' (rnodes s') /\ map rho' (rres s') = us.
    Proof using s_wf.
      intros Hf Hr. apply runs_iff in Hr as (rho & <- & Hh & <-). destruct s_wf as (Hn & Hu & Hres). set (rho1 := sets rho a nv).
      assert (Ea : map rho1 a = nv) by (apply sets_map; [apply seq_nodup | unfold a; by rewrite seq_length]).
      assert (Es : map rho1 (rargs s) = map rho (rargs s)) by (apply sets_map_out; intros x Hx; apply fresh, elem_of_app; by left).
      destruct (Hf rho1) as (rho' & E1 & E2 & E3).
      - eapply hold_ext; [|exact Hh]. intros n y Hin Hy. symmetry. apply sets_out, fresh. apply elem_of_app in Hy as [Hy|Hy]; [by eapply Hu|]. apply elem_of_app. right. apply elem_all_outs. by exists n.
      - done.
      - rewrite !map_app in E1. apply app_inj_1 in E1 as [E1 E1']; [|by rewrite !map_length]. exists rho'. split; [by rewrite E1|]. split; [by rewrite E1'|]. split; [done|]. rewrite E3. apply sets_map_out. intros x Hx. by apply fresh, Hres.
    Qed.
    Lemma body_bwd rho : bwd -> map rho a = nv -> hold rho (rnodes s') -> runs s (map rho (rargs s)) (map rho (rres s')).
    Proof.
      intros Hf Ea Hh. destruct (Hf rho) as (rho' & E1 & E2 & E3); [done..|]. rewrite !map_app in E1. apply app_inj_1 in E1 as [E1 E1']; [|by rewrite !map_length]. apply runs_iff. by exists rho'.
    Qed.
  End Body.

  Section Node.
    Context (N : node) (k : nat) (s s' : region) (news : list oid) (next : nat).
    Let m : nat := length news.
    Let a : list nat := seq (region_bound s) m.
    Hypothesis f_args : rargs s' = rargs s ++ a.
    Hypothesis N_wf : wf_node N.
    Hypothesis N_bodies : forall b, b ∈ bodies N -> wf_region b.
    Hypothesis s_in : bodies N !! k = Some s.
    Hypothesis low : forall x, x ∈ nins N ++ nouts N ++ news -> x < next.
    Let N' : node := add_vars next k (fun _ _ => s') news N.
    Lemma node_fwd rho : fwd s s' (map rho news) -> holds rho N -> holds (sets rho (seq next m) (map rho news)) N'.
    Proof.
      intros Hf Hh. assert (Ws : wf_region s) by (apply N_bodies; by eapply elem_of_list_lookup_2). set (nv := map rho news) in *. assert (Hl : length nv = m) by (unfold nv, m; by rewrite map_length).
      assert (Eout : forall l, (forall x, x ∈ l -> x ∈ nins N ++ nouts N ++ news) -> map (sets rho (seq next m) nv) l = map rho l).
      { intros l H. apply sets_map_out. intros x Hx Hin. apply seq_new in Hin. pose proof (low x (H x Hx)). lia. }
      unfold N'. destruct N as [[o'|subs|b] ins outs]; [done| |]; cbn [bodies nkind nins nouts] in *.
      - unfold Spec.holds in Hh |- *. cbn [add_vars nkind nins nouts] in Hh |- *. apply gamma_inv in Hh as (k' & s0 & vs0 & E & Hk' & Hr). destruct N_wf as [Hq Hw]. cbn [nins nouts] in Hq, Hw. destruct (Hw s0) as (W0 & L1 & L2); [by eapply elem_of_list_lookup_2|].
        rewrite map_app, (Eout ins), (Eout news), (Eout outs); [|set_solver..]. rewrite E. apply gamma_inv. eexists k', _, _. split; [by rewrite <- app_comm_cons|]. rewrite list_lookup_imap, Hk'. cbn. split; [reflexivity|].
        case_decide as Ek.
        + subst k'. rewrite s_in in Hk'. injection Hk' as <-. destruct (body_fwd s s' nv Ws (content (VCtl k) :: vs0) (map rho outs) Hf Hr) as (rho' & E1 & E2 & E3 & E4).
          rewrite Hl in E2. fold a in E2. apply runs_iff. exists rho'. rewrite f_args, map_app, E1, E2. done.
        + rewrite app_comm_cons. apply add_args_iff; done.
      - unfold Spec.holds in Hh |- *. cbn [add_vars nkind nins nouts] in Hh |- *. destruct N_wf as (La & Lr & Lo). cbn [nins nouts nkind] in La, Lr, Lo. rewrite !map_app, (Eout ins), (Eout news), (Eout outs), sets_map; [|apply seq_nodup | by rewrite seq_length | set_solver..].
        destruct k as [|k0]; [|done]. injection s_in as <-. inversion Hh as [| |b0 vs0 ws0 Hl0]; subst b0 vs0 ws0. constructor. clear Hh.
        revert Hl0. generalize (map rho outs), (map rho ins). fold m a. intros ws vs Hloop.
        assert (Hbody : forall vs us, runs b vs us -> runs (Region (rargs s') (rnodes s') (rres s' ++ a)) (vs ++ nv) (us ++ nv)).
        { intros v u Hr. destruct (body_fwd b s' nv Ws v u Hf Hr) as (rho' & E1 & E2 & E3 & E4). rewrite Hl in E2. fold a in E2. apply runs_iff. exists rho'. cbn [rargs rnodes rres]. rewrite f_args, !map_app, E1, E2, E4. done. }
        remember b as b1 eqn:Eb in Hloop. induction Hloop as [b1 vs ws Hr|b1 vs us ws Hr Hloop IH]; subst b1.
        + apply l_exit. rewrite app_comm_cons. by apply Hbody.
        + eapply l_again; [rewrite app_comm_cons; by apply Hbody|]. by apply IH.
    Qed.
    Lemma node_bwd rho : bwd s s' (map rho news) -> holds rho N' -> holds rho N.
    Proof.
      intros Hf Hh. assert (Ws : wf_region s) by (apply N_bodies; by eapply elem_of_list_lookup_2). set (nv := map rho news) in *. assert (Hl : length nv = m) by (unfold nv, m; by rewrite map_length).
      unfold N' in Hh. destruct N as [[o'|subs|b] ins outs]; [done| |]; cbn [bodies nkind nins nouts] in *.
      - unfold Spec.holds in Hh |- *. cbn [add_vars nkind nins nouts] in Hh |- *. apply gamma_inv in Hh as (k' & s0' & vs0' & E & Hk' & Hr). destruct N_wf as [Hq Hw]. cbn [nins nouts] in Hq, Hw. rewrite list_lookup_imap in Hk'. apply fmap_Some in Hk' as (s0 & Hk' & Es0). destruct (Hw s0) as (W0 & L1 & L2); [by eapply elem_of_list_lookup_2|].
        destruct ins as [|q es]; [cbn in Hq; lia|]. rewrite map_app in E. cbn [map] in E. rewrite <- app_comm_cons in E. injection E as Eq <-. fold nv in Hr.
        apply gamma_inv. exists k', s0, (map rho es). split; [cbn [map]; by rewrite Eq|]. split; [done|]. case_decide as Ek.
        + subst k'. rewrite s_in in Hk'. injection Hk' as <-. subst s0'. apply runs_iff in Hr as (rho' & E1 & E2 & E3). rewrite f_args, map_app, app_comm_cons in E1. apply app_inj_2 in E1 as [E1 E1']; [|unfold a; rewrite map_length, seq_length; lia].
          rewrite <- E3, <- E1. eapply (body_bwd s s' nv rho' Hf); [|done]. by rewrite Hl.
        + subst s0'. rewrite app_comm_cons in Hr. by apply add_args_iff in Hr.
      - unfold Spec.holds in Hh |- *. cbn [add_vars nkind nins nouts] in Hh |- *. destruct N_wf as (La & Lr & Lo). cbn [nins nouts nkind] in La, Lr, Lo. rewrite !map_app in Hh.
        destruct k as [|k0]; [|done]. injection s_in as <-. inversion Hh as [| |b0 vs0 ws0 Hl0]; subst b0 vs0 ws0. constructor. clear Hh. fold nv m a in Hl0.
        assert (Hbody : forall vs us', runs (Region (rargs s') (rnodes s') (rres s' ++ a)) (vs ++ nv) us' -> exists us, us' = us ++ nv /\ runs b vs us).
        { intros v u' Hr. apply runs_iff in Hr as (rho' & E1 & E2 & E3). cbn [rargs rnodes rres] in E1, E2, E3. rewrite f_args, map_app in E1. apply app_inj_2 in E1 as [E1 E1']; [|unfold a; rewrite map_length, seq_length; lia]. rewrite map_app, E1' in E3. exists (map rho' (rres s')). split; [done|].
          rewrite <- E1. eapply (body_bwd b s' nv rho' Hf); [by rewrite Hl | done]. }
        set (ws' := map rho outs ++ map rho (seq next m)) in Hl0. assert (Hlen : length (map rho (seq next m)) = length nv) by (rewrite map_length, seq_length; lia).
        cut (exists ws, ws' = ws ++ nv /\ loops b (map rho ins) ws).
        { intros (ws & E & Hloop). unfold ws' in E. apply app_inj_2 in E as [-> _]; done. }
        revert Hl0. generalize ws', (map rho ins). clear ws' Hlen. intros ws' vs Hloop. remember (vs ++ nv) as vs' eqn:Evs. revert vs Evs.
        remember (Region (rargs s') (rnodes s') (rres s' ++ a)) as b1 eqn:Eb in Hloop. induction Hloop as [b1 vs' ws' Hr|b1 vs' us' ws' Hr Hloop IH]; subst b1; intros vs ->.
        + apply Hbody in Hr as (us & E & Hr). destruct us as [|u us].
          * exfalso. apply runs_iff in Hr as (rho' & _ & _ & E'). apply (f_equal length) in E'. rewrite map_length in E'. cbn in E'. lia.
          * injection E as <- ->. exists us. split; [done|]. by apply l_exit.
        + apply Hbody in Hr as (us & E & Hr). destruct us as [|u us].
          * exfalso. apply runs_iff in Hr as (rho' & _ & _ & E'). apply (f_equal length) in E'. rewrite map_length in E'. cbn in E'. lia.
          * injection E as <- ->. destruct (IH eq_refl us) as (ws & -> & Hloop'); [done|]. exists ws. split; [done|]. by eapply l_again.
    Qed.
  End Node.
End Sem.
