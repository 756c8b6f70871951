(** What the reductions do to the executions of a graph. *)
From stdpp Require Import tactics relations base list list_numbers fin_sets gmap fin_maps.
From Verif.Construct Require Import Model Spec.
From Verif.Aggregation Require Import Model Spec.

Lemma redirect_eq a c : redirect a c a = c.
Proof. unfold redirect. by rewrite decide_True. Qed.
Lemma redirect_ne a c z : z <> a -> redirect a c z = z.
Proof. intros. unfold redirect. by rewrite decide_False. Qed.
Definition rd (a c : nat) (p : tree * list nat) : tree * list nat := (p.1, redirect a c <$> p.2).

Ltac ne := first [done | congruence | intros ?; congruence].

Section Run.
  Context {V : Type} (ctl : V -> option nat) (sem : nat -> list V -> option (list V)) (truth : V -> bool).
  Notation store := (nat -> V).
  Notation exec := (exec ctl sem truth).
  Definition goto (t : tree) (ss : list nat) (σ : store) (m : nat) : Prop :=
    match ss with [s] => m = s | _ => exists p i, ends_with t = Some p /\ ctl (σ p) = Some i /\ ss !! i = Some m end.
  (** from the node n with σ to the end of the node X with σ' *)
  Inductive run (L : nat -> option (tree * list nat)) (X : nat) : nat -> store -> store -> Prop :=
    | run_stop t o σ σ' : L X = Some (t, o) -> exec None t σ σ' -> run L X X σ σ'
    | run_go n t o σ σ1 m σ' : n <> X -> L n = Some (t, o) -> exec None t σ σ1 -> goto t o σ1 m -> run L X m σ1 σ' -> run L X n σ σ'.

  Lemma exec_prev prev t σ σ' : (forall l, t <> Branch l) -> exec prev t σ σ' <-> exec None t σ σ'.
  Proof using. destruct t; intros H; cbn; [done|done|by edestruct H|done]. Qed.
  Lemma goto_rd t o σ m (f : nat -> nat) : goto t o σ m -> goto t (f <$> o) σ (f m).
  Proof using.
    unfold goto. destruct o as [|s [|s' o]]; cbn; [|by intros ->|].
    - intros (p & i & _ & _ & H). by rewrite lookup_nil in H.
    - intros (p & i & H1 & H2 & H3). exists p, i. split; [done|]. split; [done|]. change (f s :: f s' :: (f <$> o)) with (f <$> s :: s' :: o). by rewrite list_lookup_fmap, H3.
  Qed.
  Lemma goto_rd_inv t o σ m' (f : nat -> nat) : goto t (f <$> o) σ m' -> exists m, m' = f m /\ m ∈ o /\ goto t o σ m.
  Proof using.
    unfold goto. destruct o as [|s [|s' o]]; cbn.
    - intros (p & i & _ & _ & H). by rewrite lookup_nil in H.
    - intros ->. exists s. split; [done|]. split; [by left|done].
    - intros (p & i & H1 & H2 & H3). change (f s :: f s' :: (f <$> o)) with (f <$> s :: s' :: o) in H3. rewrite list_lookup_fmap in H3.
      destruct ((s :: s' :: o) !! i) as [m|] eqn:E; [|done]. injection H3 as <-. exists m. split; [done|]. split; [by eapply elem_of_list_lookup_2|]. eauto.
  Qed.
  Lemma goto_in t o σ m : goto t o σ m -> m ∈ o.
  Proof using.
    unfold goto. destruct o as [|s [|s' o]]; [|intros ->; by left|]; intros (p & i & _ & _ & H); by eapply elem_of_list_lookup_2.
  Qed.

  Section Linear.
    Context (L L' : nat -> option (tree * list nat)) (X a b c : nat) (ta tb : tree) (ob : list nat).
    Context (Hab : a <> b) (HaX : a <> X) (HcX : c <> X) (Ha : L a = Some (ta, [b])) (Hb : L b = Some (tb, ob)) (Htb : forall l, tb <> Branch l).
    Context (Hpred : forall p t o, L p = Some (t, o) -> b ∈ o -> p = a) (Hc : L c = None) (Hct : forall p t o, L p = Some (t, o) -> c ∉ o).
    Context (Hc' : L' c = Some (Linear [ta; tb], redirect a c <$> ob)) (Hz' : forall z, z <> a -> z <> b -> z <> c -> L' z = rd a c <$> L z).
    Lemma linear_exec σ σ' : exec None (Linear [ta; tb]) σ σ' <-> exists σ1, exec None ta σ σ1 /\ exec None tb σ1 σ'.
    Proof using Htb.
      cbn. split; intros (σ1 & H1 & H2); exists σ1; (split; [done|]).
      - destruct H2 as (σ2 & H2 & ->). by apply exec_prev in H2.
      - exists σ'. split; [by apply exec_prev|done].
    Qed.
    Lemma linear_ends σ m : goto (Linear [ta; tb]) (redirect a c <$> ob) σ m <-> goto tb (redirect a c <$> ob) σ m.
    Proof using. unfold goto. done. Qed.
    Lemma linear_to n σ σ' : run L X n σ σ' -> (n <> b -> run L' (redirect b c X) (redirect a c n) σ σ') /\
      (n = b -> forall σ0, exec None ta σ0 σ -> run L' (redirect b c X) c σ0 σ').
    Proof using All.
      induction 1 as [t o σ σ' H1 H2|n t o σ σ1 m σ' Hn H1 H2 H3 H4 IH].
      - split.
        + intros Hb'. rewrite (redirect_ne b c X), (redirect_ne a c X) by done. eapply run_stop; [|exact H2]. rewrite Hz' by ne. rewrite H1. reflexivity.
        + intros -> σ0 H0. rewrite redirect_eq. eapply run_stop; [exact Hc'|]. apply linear_exec. rewrite Hb in H1. injection H1 as <- <-. eauto.
      - split.
        + intros Hnb. destruct (decide (n = a)) as [->|Hna].
          * rewrite redirect_eq. rewrite Ha in H1. injection H1 as <- <-. cbn in H3. subst m. by apply IH.
          * rewrite (redirect_ne a c n) by done.
            assert (Hmb : m <> b). { intros ->. apply goto_in in H3. apply Hna. by eapply Hpred. }
            assert (Hnc : n <> c) by (intros ->; by rewrite Hc in H1).
            assert (HnX' : n <> redirect b c X) by (unfold redirect; case_decide; congruence).
            assert (HL : L' n = Some (t, redirect a c <$> o)) by (rewrite Hz' by ne; rewrite H1; reflexivity).
            eapply run_go; [exact HnX'|exact HL|exact H2|by apply goto_rd|by apply IH].
        + intros -> σ0 H0. rewrite Hb in H1. injection H1 as <- <-. rewrite (redirect_ne b c X) by done.
          assert (Hmb : m <> b). { intros ->. apply goto_in in H3. by eapply Hab, eq_sym, Hpred. }
          eapply run_go; [done|exact Hc'|apply linear_exec; eauto|apply linear_ends; by apply goto_rd|]. destruct IH as (IH & _). rewrite (redirect_ne b c X) in IH by done. by apply IH.
    Qed.
    Lemma linear_from n' σ σ' : run L' (redirect b c X) n' σ σ' -> forall n, n' = redirect a c n -> n <> b -> n <> c -> run L X n σ σ'.
    Proof using All.
      intros H. remember (redirect b c X) as X' eqn:EX. induction H as [t o σ σ' H1 H2|n' t o σ σ1 m' σ' Hn H1 H2 H3 H4 IH]; intros n Hn' Hnb Hnc.
      - destruct (decide (X = b)) as [HXb|HXb].
        + rewrite HXb, redirect_eq in EX. destruct (decide (n = a)) as [->|Hna]; [|rewrite redirect_ne in Hn' by done; congruence].
          assert (E : Some (t, o) = Some (Linear [ta; tb], redirect a c <$> ob)) by by rewrite <-H1, EX, Hc'. injection E as -> ->.
          apply linear_exec in H2 as (σ1 & H2 & H5). eapply run_go; [done|exact Ha|exact H2|reflexivity|]. rewrite HXb. eapply run_stop; [exact Hb|done].
        + rewrite (redirect_ne b c X) in EX by done. assert (n = X) as ->.
          { revert Hn'. unfold redirect. case_decide; [intros; exfalso; congruence|congruence]. }
          rewrite EX, Hz' in H1 by ne. destruct (L X) as [[t1 o1]|] eqn:E; [|done]. injection H1 as <- <-. by eapply run_stop.
      - destruct (decide (n = a)) as [->|Hna].
        + rewrite redirect_eq in Hn'. subst n'. rewrite Hc' in H1. injection H1 as <- <-. apply linear_exec in H2 as (σ2 & H2 & H5). apply linear_ends in H3.
          eapply run_go; [exact HaX|exact Ha|exact H2|reflexivity|]. apply goto_rd_inv in H3 as (m & -> & Hm & H3).
          assert (HXb : X <> b) by (intros ->; rewrite redirect_eq in EX; congruence). eapply run_go; [congruence|exact Hb|exact H5|exact H3|].
          apply (IH m); [done| |]; intros ->; [by eapply Hab, eq_sym, Hpred|by eapply Hct].
        + rewrite redirect_ne in Hn' by done. subst n'. rewrite Hz' in H1 by ne. destruct (L n) as [[t1 o1]|] eqn:E; [|done]. injection H1 as <- <-.
          apply goto_rd_inv in H3 as (m & -> & Hm & H3). eapply run_go; [|exact E|exact H2|exact H3|apply (IH m); [done| |]].
          * intros ->. apply Hn. rewrite EX. by rewrite redirect_ne.
          * intros ->. apply Hna. by eapply Hpred.
          * intros ->. by eapply Hct.
    Qed.
    Lemma linear_run n σ σ' : n <> b -> n <> c -> run L X n σ σ' <-> run L' (redirect b c X) (redirect a c n) σ σ'.
    Proof using All. intros H1 H2. split; intros H; [by apply linear_to|by eapply linear_from]. Qed.
  End Linear.

  Section Branch.
    Context (L L' : nat -> option (tree * list nat)) (X a c join : nat) (ta : tree) (oa : list nat) (ls : list tree).
    Context (HaX : a <> X) (HcX : c <> X) (Ha : L a = Some (ta, oa)) (Hlen : 2 <= length oa) (Hp : exists p, ends_with ta = Some p).
    Context (Halt : Forall2 (fun m l => L m = Some (l, [join]) /\ m <> X) oa ls) (Hja : join <> a).
    Context (Hpred : forall p t o m, L p = Some (t, o) -> m ∈ oa -> m ∈ o -> p = a) (Hc : L c = None) (Hct : forall p t o, L p = Some (t, o) -> c ∉ o).
    Context (Hc' : L' c = Some (Linear [ta; Branch ls], [join])) (Hz' : forall z, z <> a -> z ∉ oa -> z <> c -> L' z = rd a c <$> L z) (HaoA : a ∉ oa).
    Lemma exec_branch σ σ' : exec None (Linear [ta; Branch ls]) σ σ' <-> exists σ1 m l, exec None ta σ σ1 /\ goto ta oa σ1 m /\ L m = Some (l, [join]) /\ m <> X /\ exec None l σ1 σ'.
    Proof using Hlen Halt.
      assert (Hgo : forall σ1 m, goto ta oa σ1 m <-> exists p i, ends_with ta = Some p /\ ctl (σ1 p) = Some i /\ oa !! i = Some m).
      { intros σ1 m. unfold goto. clear -Hlen. destruct oa as [|s [|s' o]]; [cbn in Hlen; lia|cbn in Hlen; lia|done]. }
      cbn. split.
      - intros (σ1 & H1 & σ2 & (p & i & E & Hi & H2) & ->). rewrite list_lookup_fmap in H2. destruct (ls !! i) as [l|] eqn:El; cbn in H2; [|done].
        destruct (Forall2_lookup_r _ _ _ _ _ Halt El) as (m & Hm & HLm & HmX). exists σ1, m, l. split; [done|]. split; [apply Hgo; eauto|]. done.
      - intros (σ1 & m & l & H1 & (p & i & E & Hi & Hm)%Hgo & HLm & HmX & H2). exists σ1. split; [done|]. exists σ'. split; [|done]. exists p, i. split; [done|]. split; [done|].
        destruct (Forall2_lookup_l _ _ _ _ _ Halt Hm) as (l' & Hl' & HLm' & _). rewrite list_lookup_fmap, Hl'. cbn. assert (l' = l) as -> by congruence. done.
    Qed.
    Lemma alt_lookup m : m ∈ oa -> exists l, L m = Some (l, [join]) /\ m <> X.
    Proof using Halt. intros (i & Hi)%elem_of_list_lookup. destruct (Forall2_lookup_l _ _ _ _ _ Halt Hi) as (l & _ & H). eauto. Qed.
    Lemma join_no_alt : join ∉ oa.
    Proof using Halt Hpred HaoA Hlen.
      intros Hin. assert (He : exists m, m ∈ oa) by (clear -Hlen; destruct oa as [|m o]; [cbn in Hlen; lia|exists m; by left]). destruct He as (m & Hm0). destruct (alt_lookup m Hm0) as (l & Hm & _).
      assert (Hma : m = a) by (eapply Hpred; [exact Hm|exact Hin|by left]). apply HaoA. by rewrite <-Hma.
    Qed.
    Lemma branch_to n σ σ' : run L X n σ σ' -> (n ∉ oa -> run L' X (redirect a c n) σ σ') /\
      (n ∈ oa -> forall σ0 l, L n = Some (l, [join]) -> exec None ta σ0 σ -> goto ta oa σ n -> run L' X c σ0 σ').
    Proof using All.
      induction 1 as [t o σ σ' H1 H2|n t o σ σ1 m σ' Hn H1 H2 H3 H4 IH].
      - split; [|intros Hin; by destruct (alt_lookup X Hin) as (? & _ & ?)].
        intros Hno. rewrite redirect_ne by done. eapply run_stop; [|exact H2]. rewrite Hz' by ne. rewrite H1. reflexivity.
      - split.
        + intros Hno. destruct (decide (n = a)) as [->|Hna].
          * rewrite redirect_eq. rewrite Ha in H1. injection H1 as <- <-. pose proof (goto_in _ _ _ _ H3) as Hm. destruct (alt_lookup m Hm) as (l & Hl & _).
            destruct IH as (_ & IH). eapply IH; [done|exact Hl|exact H2|exact H3].
          * rewrite (redirect_ne a c n) by done.
            assert (Hmo : m ∉ oa). { intros Hin. apply goto_in in H3. apply Hna. by eapply Hpred. }
            assert (Hnc : n <> c) by (intros ->; by rewrite Hc in H1).
            assert (HL : L' n = Some (t, redirect a c <$> o)) by (rewrite Hz' by ne; rewrite H1; reflexivity).
            eapply run_go; [done|exact HL|exact H2|by apply goto_rd|by apply IH].
        + intros Hin σ0 l Hl H0 Hg. assert (E : Some (t, o) = Some (l, [join])) by congruence. injection E as -> ->. cbn in H3. subst m.
          eapply run_go; [done|exact Hc'|apply exec_branch; exists σ, n, l; destruct (alt_lookup n Hin) as (? & _ & ?); done|reflexivity|].
          destruct IH as (IH & _). rewrite <-(redirect_ne a c join) by done. apply IH. apply join_no_alt.
    Qed.
    Lemma branch_from n' σ σ' : run L' X n' σ σ' -> forall n, n' = redirect a c n -> n ∉ oa -> n <> c -> run L X n σ σ'.
    Proof using All.
      induction 1 as [t o σ σ' H1 H2|n' t o σ σ1 m' σ' Hn H1 H2 H3 H4 IH]; intros n Hn' Hno Hnc.
      - assert (n = X) as ->. { revert Hn'. unfold redirect. case_decide; [intros; exfalso; congruence|congruence]. }
        rewrite Hz' in H1 by ne. destruct (L X) as [[t1 o1]|] eqn:E; [|done]. injection H1 as <- <-. by eapply run_stop.
      - destruct (decide (n = a)) as [->|Hna].
        + rewrite redirect_eq in Hn'. subst n'. rewrite Hc' in H1. injection H1 as <- <-. apply exec_branch in H2 as (σ2 & m & l & H2 & Hg & Hl & HmX & H5). cbn in H3. subst m'.
          eapply run_go; [done|exact Ha|exact H2|exact Hg|]. eapply run_go; [done|exact Hl|exact H5|reflexivity|].
          apply (IH join); [by rewrite redirect_ne|apply join_no_alt|]. intros ->. eapply Hct; [exact Hl|by left].
        + rewrite redirect_ne in Hn' by done. subst n'. rewrite Hz' in H1 by ne. destruct (L n) as [[t1 o1]|] eqn:E; [|done]. injection H1 as <- <-.
          apply goto_rd_inv in H3 as (m & -> & Hm & H3). eapply run_go; [done|exact E|exact H2|exact H3|apply (IH m); [done| |]].
          * intros Hin. apply Hna. by eapply Hpred.
          * intros ->. by eapply Hct.
    Qed.
    Lemma branch_run n σ σ' : n ∉ oa -> n <> c -> run L X n σ σ' <-> run L' X (redirect a c n) σ σ'.
    Proof using All. intros H1 H2. split; intros H; [by apply branch_to|by eapply branch_from]. Qed.
  End Branch.

  Section Loop.
    Context (L L' : nat -> option (tree * list nat)) (X n s : nat) (t : tree).
    Context (HnX : n <> X) (Hn : L n = Some (t, [s; n])) (Hn' : L' n = Some (Loop t, [s])) (Hz' : forall z, z <> n -> L' z = L z).
    Lemma goto_loop σ m : goto t [s; n] σ m -> exists p, ends_with t = Some p /\ ((m = s /\ ctl (σ p) = Some 0) \/ (m = n /\ ctl (σ p) = Some 1)).
    Proof using.
      intros (p & i & E & Hc & Hi). exists p. split; [done|]. destruct i as [|[|i]]; cbn in Hi; [left|right|done]; by injection Hi as <-.
    Qed.
    Lemma loop_to m σ σ' : run L X m σ σ' -> run L' X m σ σ'.
    Proof using All.
      intros H. assert (G : run L' X m σ σ' /\ (m = n -> exists p σ1, ends_with t = Some p /\ repeat_loop ctl (exec None t) p σ σ1 /\ run L' X s σ1 σ')); [|tauto].
      induction H as [t1 o σ σ' H1 H2|m t1 o σ σ1 m' σ' Hm H1 H2 H3 H4 IH].
      - split; [eapply run_stop; [|exact H2]; by rewrite Hz'|]. intros ->. done.
      - destruct IH as (IH & IHn). destruct (decide (m = n)) as [->|Hmn].
        + rewrite Hn in H1. injection H1 as <- <-. apply goto_loop in H3 as (p & Hp & [(-> & Hc)|(-> & Hc)]).
          * assert (Hr : repeat_loop ctl (exec None t) p σ σ1) by by constructor. split; [|eauto]. eapply run_go; [done|exact Hn'|cbn; eauto|reflexivity|done].
          * destruct (IHn eq_refl) as (p' & σ2 & Hp' & Hr & Hs). assert (p' = p) as -> by congruence.
            assert (Hr' : repeat_loop ctl (exec None t) p σ σ2) by by eapply rep_next. split; [|eauto]. eapply run_go; [done|exact Hn'|cbn; eauto|reflexivity|done].
        + split; [|done]. eapply run_go; [done| |exact H2|exact H3|done]. by rewrite Hz'.
    Qed.
    Lemma loop_unroll p σ σ1 : ends_with t = Some p -> repeat_loop ctl (exec None t) p σ σ1 -> forall σ', run L X s σ1 σ' -> run L X n σ σ'.
    Proof using All.
      intros Hp Hr σ'. induction Hr as [σ σ1 Hb Hc|σ σ1 σ2 Hb Hc _ IH]; intros H.
      - eapply run_go; [done|exact Hn|exact Hb| |exact H]. exists p, 0. done.
      - eapply run_go; [done|exact Hn|exact Hb| |by apply IH]. exists p, 1. done.
    Qed.
    Lemma loop_from m σ σ' : run L' X m σ σ' -> run L X m σ σ'.
    Proof using All.
      induction 1 as [t1 o σ σ' H1 H2|m t1 o σ σ1 m' σ' Hm H1 H2 H3 H4 IH].
      - eapply run_stop; [|exact H2]. by rewrite <-Hz'.
      - destruct (decide (m = n)) as [->|Hmn].
        + rewrite Hn' in H1. injection H1 as <- <-. cbn in H3. subst m'. cbn in H2. destruct H2 as (p & Hp & Hr). by eapply loop_unroll.
        + eapply run_go; [done| |exact H2|exact H3|done]. by rewrite <-Hz'.
    Qed.
    Lemma loop_run m σ σ' : run L X m σ σ' <-> run L' X m σ σ'.
    Proof using All. split; [apply loop_to|apply loop_from]. Qed.
  End Loop.
  Lemma run_ext L L' X n σ σ' : (forall z, L z = L' z) -> run L X n σ σ' <-> run L' X n σ σ'.
  Proof using.
    intros HL. split; induction 1; [eapply run_stop|eapply run_go|eapply run_stop|eapply run_go]; rewrite ?HL in *; rewrite <-?HL in *; eauto.
  Qed.
End Run.
