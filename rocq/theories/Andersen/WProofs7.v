(** The worklist solver: the visit of one node. *)
From stdpp Require Import base list list_numbers fin_sets gmap.
From Coq Require Import Lia.
From Verif.Andersen Require Import Model Spec Proofs Proofs2 Proofs3 Proofs4 Proofs5 WModel WProofs WProofs2 WProofs3 WProofs4 WProofs5 WProofs6.

Section WVisit2.
  Context (ord : forall A : Type, nat -> list A -> list A) (ord_perm : forall A k (l : list A), ord A k l ≡ₚ l).
  Context (G : prog) (c : cfg) (n : nat) (kd : nat -> kind) (WG : wf_prog n kd G).
  Notation shape := (shape c n kd). Notation sstep := (sstep G c). Notation step := (step G c n kd). Notation ok := (ok G c n kd).
  Notation vld := (vld n kd). Notation rt := WModel.rt. Notation Xc := (Xc G). Notation Ic := (Ic G).
  Notation wle := (wle n). Notation Inv := (Inv G c n kd). Notation inv_at := (inv_at G c kd). Notation ob := (ob G kd). Notation exc_in := (exc_in n).
  Notation merged := (merged c). Notation FI := (FI G). Notation good := (good G c n kd). Notation Prom := (Prom c n).
  Notation mstep := (mstep G c n kd (fun _ _ => True) (fun _ => True)).

  (** *** propagation along the edges *)
  Lemma erase_good node q w : node < n -> rt w node = node -> q < n -> (rt w q = node \/ (E w q /\ Pp w node)) ->
    good (fun x => x = node) w -> good (fun x => x = node) (erase_edge node q w) /\ wle w (erase_edge node q w).
  Proof using WG.
    intros Hn Rn Hq K [H I F]. set (w' := erase_edge node q w).
    assert (Ed : forall r x, x ∈ edges (tb w') r <-> x ∈ edges (tb w) r /\ ~ (r = node /\ x = q)).
    { intros r x. cbn. unfold upd. destruct (decide (r = node)) as [->|]; [rewrite elem_of_difference, elem_of_singleton; tauto|tauto]. }
    assert (L0 : forall a b, Lk0 w a b -> Lk0 w' a b).
    { intros a b [A|[(x & A & B)|A]]; [left; auto| |right; right; auto].
      destruct (decide (rt w b = node /\ x = q)) as [[e1 e2]|ne].
      - subst x. destruct K as [K|[K1 K2]]; [left; change (rt w a = rt w b); congruence|].
        right. right. unfold E, Pp in *. change (rt w a ∈ fext (P w) /\ rt w b ∈ fpe (P w)). rewrite <- B, e1. rewrite Rn in K2. auto.
      - right. left. exists x. split; [apply Ed; auto|auto]. }
    assert (L : wle w w').
    { split; auto. intros a b Ha Hb [A|A]; [left; auto|right; auto]. }
    split; [|auto]. split.
    - pose proof (sh_edges _ _ _ w H) as HE. destruct H. split; auto. intros r x Hx. apply Ed in Hx as [Hx _]. apply HE in Hx. auto.
    - apply (Inv_aux G c n kd WG (fun x => x = node) _ None w); cbn [WProofs3.exc_in]; auto.
      intros r Hr R. split; auto. intros x Hx. apply Ed in Hx. tauto.
    - apply (FI_aux G n kd WG w w'); auto.
  Qed.
  Definition handled (w : ws) (np : gset nat) (nx : bool) (q : nat) : Prop := (forall y, y ∈ np -> So w q y) /\ (nx = true -> E w q).
  Lemma handled_wle w w' np nx q : wle w w' -> q < n -> handled w np nx q -> handled w' np nx q.
  Proof using. intros L Hq [A B]. split; intros; [apply (le_So _ _ _ L)|apply (le_E _ _ _ L)]; auto. Qed.
  Lemma propagate_good node np nx npe pesc : (forall y, y ∈ np -> vld y) -> forall l w w' d,
    good (fun x => x = node) w -> Prom node np nx npe w -> (pesc = true -> Pp w node) -> (forall q, q ∈ l -> q < n) ->
    (forall q, q ∈ edges (tb w) node -> q ∈ l \/ handled w np nx q) ->
    propagate ord c l node np nx pesc w = Some (w', d) ->
    wle w w' /\ newE w' = newE w /\
    if d then good (fun _ => False) w'
    else good (fun x => x = node) w' /\ Prom node np nx npe w' /\ (forall q, q ∈ edges (tb w') node -> handled w' np nx q) /\ pts (P w') node = pts (P w) node /\ peseen (df w') = peseen (df w).
  Proof using WG ord_perm.
    intros V. induction l as [|q l IH]; intros w w' d Gd Pr Pe Hl He; cbn [propagate].
    { intros [= <- <-]. split; [apply wle_refl|]. split; [auto|]. split; [auto|]. split; [auto|]. split; [|auto]. intros q Hq. destruct (He q Hq) as [K|]; auto. apply elem_of_nil in K. tauto. }
    pose proof Gd as [H I F]. destruct (pr_root _ _ _ _ _ _ _ Pr) as [Hn Rn].
    assert (Hq : q < n) by (apply Hl; left). assert (Hl' : forall x, x ∈ l -> x < n) by (intros; apply Hl; right; auto).
    assert (Erase : rt w q = node \/ (E w q /\ Pp w node) -> propagate ord c l node np nx pesc (erase_edge node q w) = Some (w', d) ->
      wle w w' /\ newE w' = newE w /\
      if d then good (fun _ => False) w'
      else good (fun x => x = node) w' /\ Prom node np nx npe w' /\ (forall q, q ∈ edges (tb w') node -> handled w' np nx q) /\ pts (P w') node = pts (P w) node /\ peseen (df w') = peseen (df w)).
    { intros K Ew. destruct (erase_good node q w Hn Rn Hq K Gd) as [G1 L1].
      destruct (IH (erase_edge node q w) w' d) as (L2 & N2 & K2); auto.
      - destruct Pr. split; auto.
      - intros x Hx. cbn in Hx. rewrite upd_eq, elem_of_difference, elem_of_singleton in Hx. destruct Hx as [Hx ne]. destruct (He x Hx) as [Y|]; auto.
        apply elem_of_cons in Y as [|]; [congruence|auto].
      - split; [eapply wle_trans; eauto|]. auto. }
    destruct (decide (rt w q = node)) as [e|ne]; [apply Erase; auto|].
    destruct (pip c && (pesc && is_ext (P w) (rt w q))) eqn:Ep.
    { apply Erase. right. apply andb_true_iff in Ep as [_ Ep]. apply andb_true_iff in Ep as [Ep1 Ep2]. split; auto.
      apply ext_iff in Ep2. unfold E. change (rt w (rt w q) ∈ fext (P w)) in Ep2. rewrite (rt_rt c n kd) in Ep2; auto. }
    clear Erase. set (sp := rt w q) in *. assert (Hs : sp < n) by (apply (rt_lt c n kd); auto). assert (Rs : rt w sp = sp) by (apply (rt_rt c n kd); auto).
    pose proof (ok_prop_one ord ord_perm G c n kd (fun x => x = node) sp np nx w H Hs Rs V ne) as K.
    destruct (prop_one ord c sp np nx w) as [w1 m]. destruct K as (S1 & Sm & K1 & K2 & K3 & K4 & K5 & K6).
    destruct (good_ss G c n kd WG _ _ _ _ Gd S1) as [G1 L1]. pose proof (rt_le w w1) as R1.
    pose proof (ss_le _ _ _ _ _ (proj2 S1)) as Le1.
    assert (P1 : Prom node np nx npe w1) by (apply (Prom_ss G c n kd (fun x => x = node) node np nx npe w w1 eq_refl H (proj2 S1) Pr)).
    assert (Hq1 : handled w1 np nx q).
    { assert (Eq : rt w1 q = rt w1 sp) by (rewrite !R1 by auto; fold sp; congruence).
      split; intros.
      - right. specialize (K1 y H0). unfold Pt, pset in *. change (y ∈ pts (P w1) (rt w1 q)). rewrite Eq. auto.
      - unfold E in *. rewrite Eq. auto. }
    assert (He1 : forall x, x ∈ edges (tb w1) node -> x ∈ l \/ handled w1 np nx x).
    { intros x. rewrite (ss_tb _ _ _ _ _ (proj2 S1)). intros Hx. destruct (sh_edges _ _ _ w H _ _ Hx) as (_ & _ & Hxn). destruct (He x Hx) as [Y|Y].
      - apply elem_of_cons in Y as [->|]; auto.
      - right. eapply handled_wle; eauto. }
    assert (Pe1 : pesc = true -> Pp w1 node) by (intros; apply (le_Pp _ _ _ L1); auto).
    destruct (lcd c && _ && negb m).
    2: { intros Ew. destruct (IH w1 w' d G1 P1 Pe1 Hl' He1 Ew) as (L2 & N2 & K). split; [eapply wle_trans; eauto|]. split; [congruence|].
         rewrite (ss_prot _ _ _ _ _ (proj2 S1) node eq_refl), (ss_peseen _ _ _ _ _ (proj2 S1)) in K. auto. }
    destruct (lcd_nothing ord c node sp w1) as [[w2 o]|] eqn:Ec; cbn [mbind option_bind]; [|discriminate].
    pose proof G1 as [H1 I1 F1]. destruct (pr_root _ _ _ _ _ _ _ P1) as [_ Rn1].
    apply (lcd_nothing_spec ord ord_perm G c n kd WG (fun _ _ => True) (fun _ => True)) in Ec; auto; [|rewrite R1; auto].
    destruct o as [r|].
    - intros [= <- <-]. destruct Ec as (M & M1 & M2).
      destruct (good_mstep G c n kd WG (fun x => x = node) (fun _ => False) None w1 w2 r H1 Logic.I I1 F1 M) as (H2 & I2 & F2 & L2).
      split; [eapply wle_trans; [eauto|]; eapply wle_trans; [exact L2|apply wle_wl]|]. split; [cbn; rewrite (ms_newE _ _ _ _ _ _ _ _ _ M); auto|].
      apply (push_root G c n kd WG); auto; [apply (ms_lt _ _ _ _ _ _ _ _ _ M)|].
      apply (Inv_weaken G c n kd WG (fun x => x = node \/ x = r)); cbn [WProofs3.exc_in]; auto.
      intros x Hx Rx [->|]; auto. left. right. congruence.
    - intros Ew. destruct (good_quiet G c n kd WG _ _ _ G1 Ec) as [G2 L2]. destruct (IH w2 w' d) as (L3 & N3 & K); auto.
      + eapply Prom_quiet; eauto.
      + intros; apply (le_Pp _ _ _ L2); auto.
      + intros x. rewrite (q_tb _ _ Ec). intros Hx. destruct (sh_edges _ _ _ w1 H1 _ _ Hx) as (_ & _ & Hxn). destruct (He1 x Hx); auto. right. eapply handled_wle; eauto.
      + split; [eapply wle_trans; [eauto|]; eapply wle_trans; eauto|]. split; [rewrite N3, (q_newE _ _ Ec); auto|].
        rewrite (q_df _ _ Ec), (eqv_pts _ _ (q_P _ _ Ec)), (ss_prot _ _ _ _ _ (proj2 S1) node eq_refl), (ss_peseen _ _ _ _ _ (proj2 S1)) in K. auto.
  Qed.
End WVisit2.
