(** The worklist solver: one work item, soundness. *)
From stdpp Require Import base list list_numbers fin_sets gmap.
From Coq Require Import Lia.
From Verif.Andersen Require Import Model Spec Proofs Proofs2 Proofs3 Proofs4 Proofs5 WModel WProofs WProofs2 WProofs3 WProofs4 WProofs5.

Section WVisit.
  Context (ord : forall A : Type, nat -> list A -> list A) (ord_perm : forall A k (l : list A), ord A k l ≡ₚ l).
  Context (G : prog) (c : cfg) (n : nat) (kd : nat -> kind) (WG : wf_prog n kd G).
  Notation shape := (shape c n kd). Notation sstep := (sstep G c). Notation step := (step G c n kd). Notation ok := (ok G c n kd).
  Notation vld := (vld n kd). Notation rt := WModel.rt. Notation Xc := (Xc G). Notation Ic := (Ic G).
  Notation wle := (wle n). Notation Inv := (Inv G c n kd). Notation inv_at := (inv_at G c kd). Notation ob := (ob G kd). Notation exc_in := (exc_in n).
  Notation merged := (merged c). Notation FI := (FI G).
  Notation mstep := (mstep G c n kd (fun _ _ => True) (fun _ => True)).

  Record good (X : nat -> Prop) (w : ws) : Prop := { g_shape : shape w; g_Inv : Inv X None w; g_FI : FI w }.
  Lemma good_ss I (X : nat -> Prop) w w' : good X w -> step I w w' -> good X w' /\ wle w w'.
  Proof using WG.
    intros [H1 H2 H3] [A B]. pose proof (ss_wle G c n I w w' B). split; auto. split; auto.
    - apply (Inv_sstep G c n kd WG I X None w w'); cbn [WProofs3.exc_in]; auto.
    - eapply FI_ss; eauto.
  Qed.
  Lemma FI_aux w w' : wle w w' -> fesc (P w') = fesc (P w) -> FI w -> FI w'.
  Proof using WG. intros L E. apply (FI_wle G n kd WG); auto. intros f H1 H2. unfold Es in *. rewrite E in H1. tauto. Qed.
  Lemma good_quiet (X : nat -> Prop) w w' : good X w -> quiet w w' -> good X w' /\ wle w w'.
  Proof using WG.
    intros [H1 H2 H3] Q. pose proof (quiet_wle n w w' Q). split; auto. split; auto.
    - eapply quiet_shape; eauto.
    - apply (quiet_Inv G c n kd WG X None w w'); cbn [WProofs3.exc_in]; auto.
    - apply (FI_aux w w'); auto. apply Q.
  Qed.
  (** merge, then push the merged node *)
  Lemma wle_wl w l : wle w (setW l w).
  Proof using. apply wle_stable; auto. apply le_refl. Qed.
  Lemma sd_wl w l r : same_data w (setW l w) r.
  Proof using. split; auto. Qed.
  Lemma shape_setW w l : shape w -> (forall x, x ∈ l -> x < n) -> shape (setW l w).
  Proof using. intros [] Hl. split; auto. Qed.
  Lemma good_setW (X X' : nat -> Prop) w l : good X w -> (forall x, x ∈ l -> x < n) ->
    (forall r, r < n -> rt w r = r -> r ∉ l -> ~ X' r -> r ∉ wl w /\ ~ X r) -> good X' (setW l w).
  Proof using WG.
    intros [H1 H2 H3] Hl HX. split.
    - apply shape_setW; auto.
    - apply (Inv_aux G c n kd WG X X' None w); cbn [WProofs3.exc_in]; auto using wle_wl, sd_wl.
    - apply (FI_aux w); auto. apply wle_wl.
  Qed.
  Lemma good_mstep (X X' : nat -> Prop) exc w w' r : shape w -> exc_in exc -> Inv X exc w -> FI w -> mstep w w' r ->
    shape w' /\ Inv (fun x => X x \/ x = r) exc w' /\ FI w' /\ wle w w'.
  Proof using WG.
    intros H HE I F M. split; [apply M|]. split; [apply (ms_Inv _ _ _ _ _ _ _ _ _ M); auto|]. split; [|apply M].
    apply (FI_aux w w'); auto; apply M.
  Qed.

  (** *** what the visit of [node] promises to have handled at its end *)
  Record Prom (node : nat) (np : gset nat) (nx npe : bool) (w : ws) : Prop := {
    pr_root : node < n /\ rt w node = node;
    pr_p : forall y, y ∈ pts (P w) node -> (dp c = true /\ node ∈ tracked (df w) /\ y ∉ newp (df w) node) \/ y ∈ np;
    pr_np : forall y, y ∈ np -> y ∈ pts (P w) node;
    pr_x : node ∉ wl w -> node ∈ fext (P w) -> (dp c = true /\ node ∈ extseen (df w)) \/ nx = true;
    pr_nx : nx = true -> node ∈ fext (P w);
    pr_e : node ∉ wl w -> node ∈ fpe (P w) -> (dp c = true /\ node ∈ peseen (df w)) \/ npe = true;
    pr_npe : npe = true -> node ∈ fpe (P w) }.
  Lemma Prom_ss (I : nat -> Prop) node np nx npe w w' : I node -> shape w -> sstep I w w' -> Prom node np nx npe w -> Prom node np nx npe w'.
  Proof using.
    intros HI H S [[R1 R2] A B C D E F]. pose proof (ss_le _ _ _ _ _ S) as L. pose proof (ss_prot _ _ _ _ _ S node HI) as Pn. split.
    - rewrite (rt_le w w' node L). auto.
    - intros y. rewrite Pn. intros Hy. destruct (A y Hy) as [(A1 & A2 & A3)|]; auto. left. rewrite (ss_tracked _ _ _ _ _ S). split; auto. split; auto.
      intros K. destruct (ss_new3 _ _ _ _ _ S node y K) as [|[_ K1]]; auto.
    - intros y Hy. rewrite Pn. auto.
    - intros K1 K2. rewrite (ss_extseen _ _ _ _ _ S). apply C; [intros K; apply K1, (ss_wl _ _ _ _ _ S); auto|].
      destruct (decide (node ∈ fext (P w))); auto. destruct K1. apply (ss_dirty _ _ _ _ _ S). right. right. auto.
    - intros K. apply (le_ext _ _ L). auto.
    - intros K1 K2. rewrite (ss_peseen _ _ _ _ _ S). apply E; [intros K; apply K1, (ss_wl _ _ _ _ _ S); auto|].
      destruct (decide (node ∈ fpe (P w))); auto. destruct K1. apply (ss_dirty _ _ _ _ _ S). right. left. auto.
    - intros K. apply (le_pe _ _ L). auto.
  Qed.
  Lemma Prom_quiet node np nx npe w w' : quiet w w' -> Prom node np nx npe w -> Prom node np nx npe w'.
  Proof using.
    intros Q [[R1 R2] A B C D E F]. pose proof (quiet_rt w w' node Q) as R. destruct Q as [[S E1 E2 E3 E4] Q2 Q3 Q4 Q5 Q6].
    split; rewrite ?R, ?Q3, ?Q4, ?E2, ?E3, ?E4; auto.
  Qed.

  (** *** the end of the visit *)
  Lemma finish_good node np nx npe w : good (fun x => x = node) w -> Prom node np nx npe w ->
    ob None w node (fun y => y ∈ np) (nx = true) -> (npe = true -> forall y, y ∈ pts (P w) node -> Es w y) ->
    (dp c = true -> node ∈ peseen (df w) -> forall y, y ∈ np -> Es w y) ->
    good (fun _ => False) (finish c node nx npe w) /\ wle w (finish c node nx npe w) /\ newE (finish c node nx npe w) = newE w.
  Proof using WG.
    intros [H I F] Pr O Pe1 Pe2.
    set (w' := finish c node nx npe w).
    assert (EP : P w' = P w) by (unfold w', finish; destruct (dp c), nx, npe; auto).
    assert (ET : tb w' = tb w) by (unfold w', finish; destruct (dp c), nx, npe; auto).
    assert (EN : newE w' = newE w) by (unfold w', finish; destruct (dp c), nx, npe; auto).
    assert (EW : wl w' = wl w) by (unfold w', finish; destruct (dp c), nx, npe; auto).
    assert (EC : cy w' = cy w) by (unfold w', finish; destruct (dp c), nx, npe; auto).
    assert (Ert : forall x, rt w' x = rt w x) by (intros; unfold WModel.rt; rewrite EP; auto).
    assert (L : wle w w') by (apply wle_stable; auto; [rewrite EP; apply le_refl|rewrite EN; auto]).
    assert (Enp : forall r, newp (df w') r = if dp c then if decide (r = node) then ∅ else newp (df w) r else newp (df w) r).
    { intros r. unfold w', finish. destruct (dp c), nx, npe; auto. }
    assert (Etr : forall r, r ∈ tracked (df w') <-> r ∈ tracked (df w) \/ (dp c = true /\ r = node)).
    { intros r. unfold w', finish. destruct (dp c), nx, npe; cbn; rewrite ?elem_of_union, ?elem_of_singleton; try tauto; split; try tauto; intros [|[]]; auto; discriminate. }
    assert (Exs : forall r, r ∈ extseen (df w') <-> r ∈ extseen (df w) \/ (dp c = true /\ nx = true /\ r = node)).
    { intros r. unfold w', finish. destruct (dp c), nx, npe; cbn; rewrite ?elem_of_union, ?elem_of_singleton; try tauto; split; try tauto; intros [|[? []]]; auto; discriminate. }
    assert (Ees : forall r, r ∈ peseen (df w') <-> r ∈ peseen (df w) \/ (dp c = true /\ npe = true /\ r = node)).
    { intros r. unfold w', finish. destruct (dp c), nx, npe; cbn; rewrite ?elem_of_union, ?elem_of_singleton; try tauto; split; try tauto; intros [|[? []]]; auto; discriminate. }
    split; [|auto]. split.
    - destruct H as [S1 S2 S3 S4 S5 S6 S7 S8 S9 S10 S11]. split; rewrite ?EP, ?ET, ?EN, ?EW, ?EC; auto; try (intros *; rewrite Ert; eauto).
      intros D r y. rewrite Enp, D. destruct (decide _); [intros []%elem_of_empty|auto].
    - intros r Hr R. rewrite Ert in R. destruct (decide (r = node)) as [->|Ne].
      2: { apply (inv_at_same G c n kd WG (fun x => x = node) _ None w w'); cbn [WProofs3.exc_in]; auto; [rewrite Ert; auto| |intros [K1 K2]; rewrite EW in K1; split; auto].
           split; rewrite ?EP, ?ET; auto; rewrite ?Enp, ?Etr, ?Exs, ?Ees, ?decide_False by auto; [destruct (dp c)|..]; tauto. }
      destruct (I node Hr R) as [O0 XS ES A B C D]. destruct Pr as [_ Pp Pnp Px Pnx Pe Pnpe].
      assert (SPs : forall y, SP c (fun _ => False) w' node y -> SP c (fun x => x = node) w node y \/ y ∈ np).
      { intros y [K1 K2]. rewrite EP in K1. unfold SP. destruct (dp c) eqn:Dp.
        - destruct (Pp y K1) as [(_ & P1 & P2)|]; auto.
        - destruct (Pp y K1) as [(P0 & _)|]; [discriminate|auto]. }
      assert (SXs : SX c (fun _ => False) w' node -> (dp c = true /\ node ∈ extseen (df w)) \/ nx = true).
      { unfold SX, clean. rewrite EP, EW. destruct (dp c) eqn:Dp; [rewrite Exs; tauto|]. intros [[K1 _] K2]. auto. }
      assert (SEs : SE c (fun _ => False) w' node -> (dp c = true /\ node ∈ peseen (df w)) \/ npe = true).
      { unfold SE, clean. rewrite EP, EW. destruct (dp c) eqn:Dp; [rewrite Ees; tauto|]. intros [[K1 _] K2]. auto. }
      assert (So_n : forall y, SP c (fun _ => False) w' node y -> y < n) by (intros y [K _]; rewrite EP in K; eapply pts_vld; eauto).
      assert (SX0 : dp c = true /\ node ∈ extseen (df w) -> SX c (fun x => x = node) w node) by (unfold SX; intros [-> ?]; auto).
      split.
      + assert (O1 : ob None w node (SP c (fun _ => False) w' node) (SX c (fun _ => False) w' node)).
        { destruct O0 as [A1 A2 A3 A4 A5 A6], O as [B1 B2 B3 B4 B5 B6]. split.
          - intros q Hq. right. destruct (A1 q Hq) as [[]|[A1' A1'']], (B1 q Hq) as [[]|[B1' B1'']]. split.
            + intros y Hy. destruct (SPs y Hy); auto.
            + intros Hx. destruct (SXs Hx); auto.
          - intros q Hq. destruct (A2 q Hq), (B2 q Hq). split; [intros y Hy; destruct (SPs y Hy); auto|intros Hx; destruct (SXs Hx); auto].
          - intros q Hq. destruct (A3 q Hq), (B3 q Hq). split; [intros y Hy; destruct (SPs y Hy); auto|intros Hx; destruct (SXs Hx); auto].
          - intros q Hq. destruct (A4 q Hq) as (X1 & X2 & X3), (B4 q Hq) as (Y1 & Y2 & Y3). split; [|split].
            + intros y Hy K. destruct (SPs y Hy); eauto.
            + intros y Hy K. destruct (SPs y Hy); eauto.
            + intros Hx; destruct (SXs Hx); auto.
          - intros y K Hy. destruct (SPs y Hy); auto.
          - intros y K Hy. destruct (SPs y Hy); auto. }
        eapply (ob_mono G c n kd WG None w w'); [..|exact O1]; cbn [WProofs3.exc_in]; auto; try (rewrite ET; auto); unfold Sas, Las; rewrite ?Ert, ?EP; auto.
      + intros Hx. rewrite EP. destruct (SXs Hx) as [K|K]; auto.
      + intros Hs. rewrite EP. destruct (SEs Hs) as [[K1 K2]|K]; auto. apply ES. unfold SE. rewrite K1. auto.
      + intros Hs y Hy. unfold Es. rewrite EP. destruct Hy as [Hy1 Hy2]. rewrite EP in Hy1. destruct (SEs Hs) as [[K1 K2]|K]; [|apply Pe1; auto].
        destruct (Pp y Hy1) as [(P0 & P1 & P2)|P1]; [|apply Pe2; auto].
        apply A; [unfold SE; rewrite K1; auto|]. unfold SP. rewrite K1. auto.
      + intros [K1 _] y. rewrite EP, EW in *. intros Hy. unfold SP, clean. rewrite EP. split; auto. specialize (Etr node). rewrite EW, Enp. destruct (dp c) eqn:Dp; [|split; auto].
        rewrite decide_True by auto. split; [tauto|]. apply not_elem_of_empty.
      + intros [K1 _]. rewrite EP, EW in *. intros Hx. unfold SX, clean. rewrite EP, EW. specialize (Exs node). destruct (Px K1 Hx) as [[D1 D2]|D1]; [rewrite D1; tauto|].
        destruct (dp c); tauto.
      + intros [K1 _]. rewrite EP, EW in *. intros Hx. unfold SE, clean. rewrite EP, EW. specialize (Ees node). destruct (Pe K1 Hx) as [[D1 D2]|D1]; [rewrite D1; tauto|].
        destruct (dp c); tauto.
    - apply (FI_aux w w'); auto. rewrite EP. auto.
  Qed.

  (** *** adding and removing edges *)
  Lemma wle_tables w t : (forall r, edges (tb w) r ⊆ edges t r) -> stc t = stc (tb w) -> ldc t = ldc (tb w) -> clc t = clc (tb w) -> wle w (setT t w).
  Proof using.
    intros A B1 B2 B3.
    assert (L0 : forall a b, Lk0 w a b -> Lk0 (setT t w) a b).
    { intros a b [K|[(q & K1 & K2)|K]]; [left; auto|right; left; exists q; split; auto; apply A; auto|right; right; auto]. }
    split; cbn [tb setT]; rewrite ?B1, ?B2, ?B3; auto.
    intros a b Ha Hb [K|K]; [left; auto|right; auto].
  Qed.
  Lemma add_edge_tables w sup sub : good (fun _ => False) w -> sup < n -> sub < n -> rt w sup = sup -> rt w sub = sub ->
    let w1 := setT (mktb (upd (edges (tb w)) sub ({[sup]} ∪ edges (tb w) sub)) (stc (tb w)) (ldc (tb w)) (clc (tb w))) w in
    shape w1 /\ Inv (fun _ => False) (Some (sub, sup)) w1 /\ FI w1 /\ wle w w1.
  Proof using WG.
    intros [H I F] Hp Hb Rp Rb w1.
    assert (Ed : forall r q, q ∈ edges (tb w1) r <-> q ∈ edges (tb w) r \/ (r = sub /\ q = sup)).
    { intros r q. cbn. unfold upd. destruct (decide (r = sub)) as [->|]; [rewrite elem_of_union, elem_of_singleton; tauto|tauto]. }
    assert (L : wle w w1) by (apply wle_tables; auto; intros r q Hq; apply Ed; auto).
    split; [|split; [|split; [|auto]]].
    - pose proof (sh_edges _ _ _ w H) as HE. destruct H. split; auto. intros r q Hq. apply Ed in Hq as [Hq|[-> ->]]; auto. apply HE in Hq. auto.
    - intros r Hr R. destruct (I r Hr R) as [[O1 O2 O3 O4 O5 O6] XS ES A B C D]. split; auto. split; auto.
      + intros q Hq. apply Ed in Hq as [Hq|[-> ->]].
        * destruct (O1 q Hq) as [[]|K]. auto.
        * left. split; auto.
      + intros q Hq. destruct (O2 q Hq). split; [intros y Hy; apply (le_Lk _ _ _ L); [eapply SP_lt; eauto|apply (sh_stc _ _ _ w H _ _ Hq)|auto]|auto].
      + intros q Hq. destruct (O3 q Hq). split; [intros y Hy; apply (le_Lk _ _ _ L); [apply (sh_ldc _ _ _ w H _ _ Hq)|eapply SP_lt; eauto|auto]|auto].
      + intros q Hq. destruct (O4 q Hq) as (Y1 & Y2 & Y3). split; [|split]; auto. intros y Hy K. apply (Ic_wle G n kd WG _ _ _ _ L). auto.
    - apply (FI_aux w w1); auto.
  Qed.
  Lemma push_root (X : nat -> Prop) w r : shape w -> r < n -> Inv (fun x => X x \/ x = r) None w -> FI w -> good X (push r w).
  Proof using WG.
    intros H Hr I F. apply (good_setW (fun x => X x \/ x = r)); [split; auto| |].
    - intros x. rewrite elem_of_union, elem_of_singleton. intros [->|]; auto. apply (sh_wl _ _ _ w H); auto.
    - intros x Hx R. rewrite elem_of_union, elem_of_singleton. intuition.
  Qed.
  Lemma Lk0_same w a b a' b' : rt w a = rt w a' -> rt w b = rt w b' -> Lk0 w a b -> Lk0 w a' b'.
  Proof using. unfold Lk0, E, Pp. intros -> ->. auto. Qed.
  Lemma add_edge_good superset subset w w' : good (fun _ => False) w -> superset < n -> subset < n -> add_edge ord c superset subset w = Some w' ->
    good (fun _ => False) w' /\ wle w w' /\ Lk0 w' superset subset /\ newE w' = newE w.
  Proof using WG ord_perm.
    intros Gd Hp0 Hb0. pose proof Gd as [H I F]. unfold add_edge. set (sup := rt w superset). set (sub := rt w subset).
    assert (Hp : sup < n) by (apply (rt_lt c n kd); auto). assert (Hb : sub < n) by (apply (rt_lt c n kd); auto).
    assert (Rp : rt w sup = sup) by (apply (rt_rt c n kd); auto). assert (Rb : rt w sub = sub) by (apply (rt_rt c n kd); auto).
    assert (Lsw : forall w', wle w w' -> Lk0 w' sup sub -> Lk0 w' superset subset).
    { intros w2 L. apply Lk0_same; apply (le_same _ _ _ L); auto. }
    destruct (decide (sup = sub)) as [e|ne].
    { intros [= <-]. split; [auto|]. split; [apply wle_refl|]. split; auto. left. auto. }
    destruct (pip c && (is_ext (P w) sup && has_pe (P w) sub)) eqn:E1.
    { intros [= <-]. split; [auto|]. split; [apply wle_refl|]. split; auto. apply (Lsw w (wle_refl n w)). right. right.
      apply andb_true_iff in E1 as [_ E1]. apply andb_true_iff in E1 as [A B]. apply ext_iff in A. apply pe_iff in B. auto. }
    destruct (pip c && implicit (P w) sup) eqn:E2.
    { intros [= <-]. apply andb_true_iff in E2 as [_ E2]. apply andb_true_iff in E2 as [A B]. apply ext_iff in A.
      pose proof (ok_mark_pe_push G c n kd (fun _ => False) sub Hb w H) as S. destruct (good_ss _ _ _ _ Gd S) as [Gd' L]. split; [auto|]. split; [auto|]. split.
      - apply (Lsw _ L). right. right. split; [apply (le_E _ _ _ L); auto|apply (est_mark_pe_push c n kd); auto].
      - rewrite (mark_pe_push_eq c n kd) by auto. destruct (decide _); auto. }
    destruct (decide (sup ∈ edges (tb w) sub)) as [e|ne2].
    { intros [= <-]. split; [auto|]. split; [apply wle_refl|]. split; auto. apply (Lsw w (wle_refl n w)). right. left. exists sup. rewrite Rb. auto. }
    destruct (add_edge_tables w sup sub Gd Hp Hb Rp Rb) as (H1 & I1 & F1 & L1).
    set (w1 := setT _ w) in *.
    assert (N1 : newE w1 = newE w) by auto. assert (Lk1 : Lk0 w1 sup sub).
    { right. left. exists sup. change (rt w1) with (rt w). rewrite Rb. split; auto. cbn. unfold upd. rewrite decide_True, elem_of_union, elem_of_singleton by auto. auto. }
    assert (XI : exc_in (Some (sub, sup))) by (cbn; auto).
    assert (Merge : forall w2 w3 r, quiet w1 w2 -> mstep w2 w3 r -> rt w3 sup = r -> rt w3 sub = r ->
              good (fun _ => False) (push r w3) /\ wle w (push r w3) /\ Lk0 (push r w3) superset subset /\ newE (push r w3) = newE w).
    { intros w2 w3 r Q M M1 M2.
      assert (H2 : shape w2) by (eapply quiet_shape; eauto). assert (I2 : Inv (fun _ => False) (Some (sub, sup)) w2) by (apply (quiet_Inv G c n kd WG _ _ w1 w2); auto).
      assert (F2 : FI w2) by (apply (FI_aux w1 w2); [eapply quiet_wle; eauto|apply Q|auto]).
      destruct (good_mstep (fun _ => False) (fun _ => False) (Some (sub, sup)) w2 w3 r H2 XI I2 F2 M) as (H3 & I3 & F3 & L3).
      assert (L : wle w (push r w3)).
      { eapply wle_trans; [exact L1|]. eapply wle_trans; [eapply quiet_wle; eauto|]. eapply wle_trans; [exact L3|apply wle_wl]. }
      split; [|split; [auto|split]].
      - apply push_root; auto; [apply (ms_lt _ _ _ _ _ _ _ _ _ M)|]. apply (Inv_unexempt G c n kd _ sub sup); auto. left. congruence.
      - apply (Lsw _ L). left. change (rt w3 sup = rt w3 sub). congruence.
      - cbn. rewrite (ms_newE _ _ _ _ _ _ _ _ _ M), (q_newE _ _ Q). auto. }
    destruct (if ocd c then ocd_maintain ord c sub sup w1 else Some (w1, None)) as [[w2 o]|] eqn:Eo; cbn [mbind option_bind]; [|discriminate].
    assert (Oc : match o with None => quiet w1 w2 | Some r => mstep w1 w2 r /\ rt w2 sup = r /\ rt w2 sub = r end).
    { destruct (ocd c); [|injection Eo as <- <-; apply quiet_refl].
      apply (ocd_maintain_spec ord ord_perm G c n kd WG (fun _ _ => True) (fun _ => True)) in Eo; auto. }
    destruct o as [r|].
    { intros [= <-]. destruct Oc as (M & M1 & M2). apply (Merge w1 w2 r); auto. apply quiet_refl. }
    assert (H2 : shape w2) by (eapply quiet_shape; eauto). assert (I2 : Inv (fun _ => False) (Some (sub, sup)) w2) by (apply (quiet_Inv G c n kd WG _ _ w1 w2); auto).
    assert (F2 : FI w2) by (apply (FI_aux w1 w2); [eapply quiet_wle; eauto|apply Oc|auto]).
    assert (Rp2 : rt w2 sup = sup) by (rewrite (quiet_rt _ _ sup Oc); auto). assert (Rb2 : rt w2 sub = sub) by (rewrite (quiet_rt _ _ sub Oc); auto).
    pose proof (ok_make_ss ord ord_perm G c n kd (fun _ => False) sup sub w2 H2 Hp Hb Rp2 Rb2 ne (fun x => x)) as K.
    destruct (make_ss ord c sup sub w2) as [w3 any]. set (w4 := if any then push sup w3 else w3) in *. cbn zeta in K.
    destruct K as ((H4 & S4) & K1 & K2 & K3 & K4 & K5 & K6 & K7 & K8).
    pose proof (ss_wle _ _ n _ _ _ S4) as L4. pose proof (rt_le w2 w4) as Rle. specialize (Rle sub (ss_le _ _ _ _ _ S4)) as Rb4. specialize (Rle sup (ss_le _ _ _ _ _ S4)) as Rp4.
    rewrite Rb2 in Rb4. rewrite Rp2 in Rp4.
    assert (I4 : Inv (fun _ => False) None w4).
    { apply (Inv_unexempt G c n kd _ sub sup); auto; [apply (Inv_sstep G c n kd WG (fun _ => False) _ _ w2); auto|].
      right. rewrite Rb4. assert (Epts : pts (P w4) sub = pts (P w2) sub) by (apply K7; auto).
      assert (Ee : sub ∈ fext (P w4) -> E w4 sup).
      { intros K. apply K3. unfold E. rewrite Rb2. apply K8; auto. }
      split.
      - intros y [Hy _]. right. apply K2. unfold Pt, pset. fold (rt w2 sub). rewrite Rb2, <- Epts. auto.
      - intros Hs. apply Ee. unfold SX in Hs. destruct (Inv_sstep G c n kd WG (fun _ => False) _ _ w2 w4 H2 XI S4 I2 sub Hb Rb4) as [_ XS _ _ _ _ _].
        apply XS. unfold SX. auto. }
    assert (F4 : FI w4) by (eapply FI_ss; eauto).
    assert (L : wle w w4).
    { eapply wle_trans; [exact L1|]. eapply wle_trans; [eapply quiet_wle; eauto|]. auto. }
    assert (N4 : newE w4 = newE w) by (rewrite K6, (q_newE _ _ Oc); auto).
    assert (Fin4 : good (fun _ => False) w4 /\ wle w w4 /\ Lk0 w4 superset subset /\ newE w4 = newE w).
    { split; [split; auto|]. split; [auto|]. split; [|auto]. apply (Lsw _ L). apply (le_Lk0 _ _ _ L4); auto. apply (le_Lk0 _ _ _ (quiet_wle n _ _ Oc)); auto. }
    clearbody w4. destruct (lcd c && _ && negb any) eqn:El; [|intros Hw; inversion Hw; subst w'; exact Fin4].
    apply andb_true_iff in El as [_ El]. apply negb_true_iff in El. subst any.
    destruct (lcd_nothing ord c sub sup w4) as [[w5 o]|] eqn:Ec; cbn [mbind option_bind]; [|discriminate]. intros [= <-].
    apply (lcd_nothing_spec ord ord_perm G c n kd WG (fun _ _ => True) (fun _ => True)) in Ec; auto.
    destruct o as [r|].
    - destruct Ec as (M & M1 & M2). apply (Merge w4 w5 r); auto. rewrite (K1 eq_refl). eapply quiet_trans; [exact Oc|apply quiet_tickw].
    - destruct Fin4 as (Gd4 & _ & Lk4 & _). destruct (good_quiet _ _ _ Gd4 Ec) as [Gd5 L5]. split; [auto|]. split; [eapply wle_trans; eauto|].
      split; [apply (le_Lk0 _ _ _ L5); auto|]. rewrite (q_newE _ _ Ec). auto.
  Qed.
  Lemma flush_list_good l : forall w w', (forall a b, (a, b) ∈ l -> a < n /\ b < n) -> good (fun _ => False) w -> flush_list ord c l w = Some w' ->
    good (fun _ => False) w' /\ wle w w' /\ (forall a b, (a, b) ∈ l -> Lk0 w' a b) /\ newE w' = newE w.
  Proof using WG ord_perm.
    induction l as [|[a b] l IH]; intros w w' Hl Gd; cbn [flush_list].
    - intros [= <-]. split; [auto|]. split; [apply wle_refl|]. split; auto. intros a b []%elem_of_nil.
    - destruct (add_edge ord c a b w) as [w1|] eqn:E1; cbn [mbind option_bind]; [|discriminate]. intros E2.
      destruct (Hl a b) as [Ha Hb]; [left|].
      destruct (add_edge_good a b w w1 Gd Ha Hb E1) as (G1 & L1 & K1 & N1).
      destruct (IH w1 w') as (G2 & L2 & K2 & N2); auto. { intros; apply Hl; right; auto. }
      split; [auto|]. split; [eapply wle_trans; eauto|]. split; [|congruence].
      intros x y. rewrite elem_of_cons. intros [[= -> ->]|Hxy]; auto. apply (le_Lk0 _ _ _ L2); auto.
  Qed.
  Lemma flush_good w w' : good (fun _ => False) w -> flush ord c w = Some w' -> good (fun _ => False) w' /\ wle w w' /\ newE w' = ∅.
  Proof using WG ord_perm.
    intros Gd. unfold flush. destruct (good_quiet _ _ _ Gd (quiet_tickw w)) as [Gt Lt].
    assert (El : forall p, p ∈ ord (nat * nat)%type (tick (P w)) (elements (newE w)) <-> p ∈ newE w) by (intros p; rewrite (ord_perm _ _ _); apply elem_of_elements).
    destruct (flush_list _ _ _ _) as [w1|] eqn:E1; cbn [mbind option_bind]; [|discriminate]. intros [= <-].
    destruct (flush_list_good _ _ _ (fun a b Hab => sh_newE _ _ _ w (g_shape _ _ Gd) a b (proj1 (El (a, b)) Hab)) Gt E1) as (G1 & L1 & K1 & N1).
    assert (L : wle w (setN ∅ w1)).
    { pose proof (wle_trans n _ _ _ Lt L1) as LL. pose proof LL as [A1 A2 A3 A4 A5 A6 A7 A8 A9 A10 A11 A12 A13]. split; auto.
      intros a b Ha Hb [K|(x & y & X1 & X2 & X3)]; [left; apply A1; auto|]. left. destruct (sh_newE _ _ _ w (g_shape _ _ Gd) x y X1).
      refine (Lk0_same _ x y a b _ _ _); [apply A2; auto|apply A2; auto|]. apply K1. apply El. auto. }
    split; [|auto]. destruct G1 as [H1 I1 F1].
    assert (Q : forall r, same_data w1 (setN ∅ w1) r) by (intros; split; auto).
    assert (L0 : wle w1 (setN ∅ w1)).
    { split; auto. intros a b Ha Hb [K|(x & y & X1 & X2 & X3)]; [left; auto|]. left. rewrite N1 in X1. refine (Lk0_same _ x y a b _ _ _); auto. apply K1, El. auto. }
    split.
    - destruct H1. split; auto. intros a b []%elem_of_empty.
    - apply (Inv_aux G c n kd WG (fun _ => False) _ None w1); cbn [WProofs3.exc_in]; auto.
    - apply (FI_aux w1); auto.
  Qed.
End WVisit.
