(** The worklist solver: hybrid cycle detection, the drivers, and soundness of the result. *)
From stdpp Require Import base list list_numbers fin_sets gmap.
From Coq Require Import Lia.
From Verif.Andersen Require Import Model Spec Proofs Proofs2 Proofs3 Proofs4 Proofs5 WModel WProofs WProofs2 WProofs3 WProofs4 WProofs5 WProofs6 WProofs7 WProofs8 WProofs9.
From Verif.Tarjan Require Model Spec Properties.

Section WDrive.
  Context (ord : forall A : Type, nat -> list A -> list A) (ord_perm : forall A k (l : list A), ord A k l ≡ₚ l).
  Context (pick : nat -> gset nat -> nat) (pick_in : forall k (S : gset nat), S <> ∅ -> pick k S ∈ S).
  Context (MAX : nat) (G : prog) (c : cfg) (n : nat) (kd : nat -> kind) (WG : wf_prog n kd G).
  Notation shape := (shape c n kd). Notation sstep := (sstep G c). Notation step := (step G c n kd). Notation ok := (ok G c n kd).
  Notation vld := (vld n kd). Notation rt := WModel.rt. Notation Xc := (Xc G). Notation Ic := (Ic G).
  Notation wle := (wle n). Notation Inv := (Inv G c n kd). Notation inv_at := (inv_at G c kd). Notation ob := (ob G kd). Notation exc_in := (exc_in n).
  Notation merged := (merged c). Notation FI := (FI G). Notation good := (good G c n kd). Notation Prom := (Prom c n).
  Notation mstep := (mstep G c n kd (fun _ _ => True) (fun _ => True)). Notation handled := WProofs7.handled.
  Notation none := (fun _ : nat => False).

  Lemma quiet_ref node r w : r < npo (P w) -> quiet w (set_ref node r w).
  Proof using.
    intros Hr. apply quiet_setC. intros i x. cbn. unfold upd. destruct (decide _); [intros [= <-]; auto|eauto].
  Qed.
  Lemma unify_all_spec node w0 : shape w0 -> forall l root w w' r' any, (quiet w0 w \/ mstep w0 w root) -> shape w -> root < n -> rt w root = root ->
    (forall y, y ∈ l -> y < n) -> unify_all c node l root w = (w', r', any) ->
    (any = false -> w' = w /\ r' = root) /\ (any = true -> mstep w0 w' r').
  Proof using WG.
    intros H0. induction l as [|y l IH]; intros root w w' r' any Q H Hr Rr Hl; cbn [unify_all].
    - intros [= <- <- <-]. split; [auto|discriminate].
    - assert (Hy : y < n) by (apply Hl; left). assert (Hl' : forall z, z ∈ l -> z < n) by (intros; apply Hl; right; auto).
      destruct (decide (rt w y = root)) as [e|ne]; [intros E; eapply IH; eauto|].
      assert (Lr : rt w y < n) by (apply (rt_lt c n kd); auto). assert (Ry : rt w (rt w y) = rt w y) by (apply (rt_rt c n kd); auto).
      assert (M : let '(w1, r1) := wunify c root (rt w y) w in mstep w0 w1 r1).
      { destruct Q as [Q|Q].
        - pose proof (wunify_first G c n kd WG (fun _ _ => True) (fun _ => True) (fun _ => Logic.I) (fun _ _ _ _ _ _ _ _ _ => Logic.I) root (rt w y) w H Logic.I Hr Lr) as F.
          rewrite Rr, Ry in F. specialize (F (fun e => ne (eq_sym e)) Logic.I Logic.I). destruct (wunify c root (rt w y) w) as [w1 r1]. destruct F as [F _].
          eapply ms_quiet_l; eauto.
        - pose proof (wunify_more G c n kd WG (fun _ _ => True) (fun _ => True) (fun _ _ _ _ _ => Logic.I) (fun _ _ _ _ _ _ _ _ _ => Logic.I) root (rt w y) w0 w root H0 Q Hr Lr) as F.
          rewrite Rr, Ry in F. specialize (F (fun e => ne (eq_sym e)) (or_introl eq_refl) Logic.I Logic.I). destruct (wunify c root (rt w y) w) as [w1 r1]. apply F. }
      destruct (wunify c root (rt w y) w) as [w1 r1]. pose proof (ms_shape _ _ _ _ _ _ _ _ _ M) as H1. pose proof (ms_lt _ _ _ _ _ _ _ _ _ M) as L1.
      assert (Qr : quiet w1 (set_ref node r1 w1)) by (apply quiet_ref; rewrite (sh_npo _ _ _ w1 H1); auto).
      assert (M1 : mstep w0 (set_ref node r1 w1) r1) by (eapply ms_quiet_r; eauto).
      destruct (unify_all c node l r1 (set_ref node r1 w1)) as [[w2 r2] b] eqn:E2. intros [= <- <- <-]. split; [discriminate|]. intros _.
      destruct (IH r1 (set_ref node r1 w1) w2 r2 b (or_intror M1)) as [A B]; auto.
      + eapply quiet_shape; eauto.
      + apply (ms_r _ _ _ _ _ _ _ _ _ M).
      + destruct b; [auto|]. destruct (A eq_refl) as [-> ->]. auto.
  Qed.
  Lemma hybrid_good node np w : node < n -> rt w node = node -> good (fun x => x = node) w -> (forall y, y ∈ np -> y < n) ->
    let '(w', d) := hybrid ord c node np w in
    wle w w' /\ newE w' = newE w /\
    if d then good none w' else good (fun x => x = node) w' /\ rt w' node = node /\ same_data w w' node /\ (node ∉ wl w' -> node ∉ wl w).
  Proof using WG ord_perm.
    intros Hn Rn Gd Hnp. pose proof Gd as [H I F]. unfold hybrid. destruct (refroot (cy w) node) as [r|] eqn:Er.
    2: { split; [apply wle_refl|]. split; [auto|]. split; [auto|]. split; [auto|]. split; [apply sd_refl|auto]. }
    assert (Hr : r < n) by (eapply sh_ref; eauto). assert (Lr : rt w r < n) by (apply (rt_lt c n kd); auto).
    assert (Q1 : quiet w (tickw w)) by apply quiet_tickw. set (w1 := set_ref node (rt w r) (tickw w)).
    assert (Q : quiet w w1) by (eapply quiet_trans; [exact Q1|]; apply quiet_ref; change (rt w r < npo (P w)); rewrite (sh_npo _ _ _ w H); exact Lr).
    destruct (good_quiet G c n kd WG _ _ _ Gd Q) as [G1 L1]. pose proof (g_shape _ _ _ _ _ _ G1) as H1.
    destruct (unify_all c node (items ord np w) (rt w r) w1) as [[w2 r2] any] eqn:Eu.
    destruct (unify_all_spec node w H (items ord np w) (rt w r) w1 w2 r2 any) as [A B]; auto.
    { rewrite (quiet_rt _ _ _ Q). apply (rt_rt c n kd); auto. } { intros y Hy. apply items_in in Hy; auto. }
    destruct any.
    2: { destruct (A eq_refl) as [-> ->]. split; [auto|]. split; [apply Q|]. split; [auto|]. split; [rewrite (quiet_rt _ _ _ Q); auto|]. split; [apply quiet_data; auto|]. rewrite (q_wl _ _ Q). auto. }
    specialize (B eq_refl). clear A. cbn zeta.
    destruct (good_mstep G c n kd WG (fun x => x = node) none None w w2 r2 H Logic.I I F B) as (H2 & I2 & F2 & L2).
    split; [eapply wle_trans; [exact L2|apply wle_wl]|]. split; [cbn; apply (ms_newE _ _ _ _ _ _ _ _ _ B)|].
    pose proof (ms_lt _ _ _ _ _ _ _ _ _ B) as Lr2. pose proof (ms_r _ _ _ _ _ _ _ _ _ B) as Rr2.
    change (rt (push r2 w2) node) with (rt w2 node). case_bool_decide as e.
    - apply (push_root G c n kd WG); auto. apply (Inv_weaken G c n kd WG (fun x => x = node \/ x = r2)); cbn [WProofs3.exc_in]; auto.
      intros x Hx Rx [->|]; auto. left. right. congruence.
    - assert (Rn2 : rt w2 node = node).
      { destruct (decide (rt w2 node = node)) as [|Ne]; auto. exfalso. apply e. symmetry.
        pose proof (rt_lt c n kd w2 node H2 Hn) as Lx. pose proof (rt_rt c n kd w2 node H2 Hn) as Rx.
        assert (Rx0 : rt w (rt w2 node) = rt w2 node) by (apply (le_root _ _ _ L2); auto).
        apply (ms_class _ _ _ _ _ _ _ _ _ B node (rt w2 node)); auto. congruence. }
      assert (Nr : node <> r2) by congruence.
      split; [apply (push_root G c n kd WG); auto|]. split; [exact Rn2|]. split.
      + pose proof (ms_data _ _ _ _ _ _ _ _ _ B node Hn Rn2 Nr) as D. eapply sd_trans; [exact D|apply sd_wl].
      + cbn. rewrite elem_of_union, elem_of_singleton, (ms_wl _ _ _ _ _ _ _ _ _ B). tauto.
  Qed.
  (** *** one work item *)
  Lemma handle_good node w w' : node < n -> newE w = ∅ -> good none w ->
    handle ord G c node (tickw (setW (wl w ∖ {[node]}) w)) = Some w' -> good none w' /\ wle w w' /\ newE w' = ∅.
  Proof using WG ord_perm.
    intros Hn N0 Gd Eh. pose proof Gd as [H I F]. set (w1 := tickw (setW (wl w ∖ {[node]}) w)) in *.
    assert (Sub : forall x, x ∈ wl w ∖ {[node]} -> x < n) by (intros x Hx; apply elem_of_difference in Hx as [Hx _]; apply (sh_wl _ _ _ w H); auto).
    assert (L1 : wle w w1) by (eapply wle_trans; [apply wle_wl|apply quiet_wle, quiet_tickw]).
    unfold handle in Eh. destruct (is_root (P w1) node) eqn:Er.
    2: { injection Eh as <-. split; [|auto]. apply bool_decide_eq_false in Er. change (rt w node <> node) in Er.
         apply (good_quiet G c n kd WG _ (setW (wl w ∖ {[node]}) w)); [|apply quiet_tickw]. apply (good_setW G c n kd WG none); auto.
         intros r Hr Rr K1 K2. split; auto. intros K. apply K1. apply elem_of_difference. split; auto. rewrite elem_of_singleton. intros ->. auto. }
    apply bool_decide_eq_true in Er. change (rt w1 node = node) in Er.
    assert (G1 : good (fun x => x = node) w1).
    { apply (good_quiet G c n kd WG _ (setW (wl w ∖ {[node]}) w)); [|apply quiet_tickw]. apply (good_setW G c n kd WG none); auto.
      intros r Hr Rr K1 K2. split; auto. intros K. apply K1. apply elem_of_difference. split; auto. rewrite elem_of_singleton. auto. }
    pose proof (g_shape _ _ _ _ _ _ G1) as H1.
    set (np0 := new_pointees c w1 node) in *. set (nx := ext_new c w1 node) in *.
    assert (Eps : pset (P w1) node = pts (P w1) node) by (unfold pset; fold (rt w1 node); rewrite Er; auto).
    assert (A1 : forall y, y ∈ pts (P w1) node -> (dp c = true /\ node ∈ tracked (df w1) /\ y ∉ newp (df w1) node) \/ y ∈ np0).
    { intros y Hy. unfold np0, new_pointees. rewrite Eps. destruct (dp c); cbn [andb]; auto. case_bool_decide; auto. destruct (decide (y ∈ newp (df w1) node)); auto. }
    assert (A2 : forall y, y ∈ np0 -> y ∈ pts (P w1) node).
    { intros y. unfold np0, new_pointees. rewrite Eps. destruct (dp c) eqn:Dp; cbn [andb]; auto. case_bool_decide; auto. apply (sh_newp _ _ _ w1 H1); auto. }
    assert (Hx : is_ext (P w1) node = true <-> node ∈ fext (P w1)) by (rewrite ext_iff; fold (rt w1 node); rewrite Er; tauto).
    assert (A3 : node ∈ fext (P w1) -> (dp c = true /\ node ∈ extseen (df w1)) \/ nx = true).
    { intros K. apply Hx in K. unfold nx, ext_new. rewrite K. destruct (dp c); cbn; auto. case_bool_decide; auto. }
    assert (A4 : nx = true -> node ∈ fext (P w1)) by (unfold nx, ext_new; intros K; apply andb_true_iff in K; tauto).
    assert (V : forall y, y ∈ np0 -> y < n) by (intros y Hy; apply (pts_vld c n kd w1 node); auto).
    assert (K : let '(w2, d) := (if hcd c then hybrid ord c node np0 w1 else (w1, false)) in
      wle w1 w2 /\ newE w2 = newE w1 /\
      if d then good none w2 else good (fun x => x = node) w2 /\ rt w2 node = node /\ same_data w1 w2 node /\ (node ∉ wl w2 -> node ∉ wl w1)).
    { destruct (hcd c); [apply hybrid_good; auto|]. split; [apply wle_refl|]. split; [auto|]. split; [auto|]. split; [auto|]. split; [apply sd_refl|auto]. }
    destruct (if hcd c then hybrid ord c node np0 w1 else (w1, false)) as [w2 d]. destruct K as (L2 & N2 & K).
    destruct d; [injection Eh as <-; split; [auto|]; split; [eapply wle_trans; eauto|]; rewrite N2; auto|].
    destruct K as (G2 & R2 & [D1 D2 D3 D4 D5 D6 D7 D8 D9 D10 D11 D12 D13] & W2).
    destruct (visit_good ord ord_perm G c n kd WG node np0 nx w2 w') as (G3 & L3 & N3); auto.
    - intros y. rewrite D5, D6, D7. auto.
    - intros y. rewrite D5. auto.
    - intros K1. rewrite D8, D10. auto.
    - rewrite D10. auto.
    - rewrite N2. auto.
    - split; [auto|]. split; [|auto]. eapply wle_trans; [exact L1|]. eapply wle_trans; eauto.
  Qed.
  (** *** the drivers *)
  Definition gstate (w w' : ws) : Prop := good none w' /\ wle w w' /\ newE w' = ∅.
  Lemma run_worklist_good fuel : forall w w', good none w -> newE w = ∅ -> run_worklist ord pick G c fuel w = Some w' -> gstate w w' /\ wl w' = ∅.
  Proof using WG ord_perm pick_in.
    induction fuel as [|fuel IH]; intros w w' Gd N; cbn [run_worklist]; (destruct (decide (wl w = ∅)) as [e|ne]; [intros [= <-]; split; auto; split; [auto|]; split; [apply wle_refl|auto]|]); [discriminate|].
    destruct (handle _ _ _ _ _) as [w1|] eqn:E1; cbn [mbind option_bind]; [|discriminate]. intros E2.
    destruct (handle_good (pick (tick (P w)) (wl w)) w w1) as (G1 & L1 & N1); auto.
    { apply (sh_wl _ _ _ w (g_shape _ _ _ _ _ _ Gd)). auto. }
    destruct (IH w1 w' G1 N1 E2) as [(G2 & L2 & N2) W2]. split; auto. split; [auto|]. split; [eapply wle_trans; eauto|auto].
  Qed.
  Lemma repeat_node_good fuel node : node < n -> forall w w', good none w -> newE w = ∅ -> repeat_node ord G c fuel node w = Some w' -> gstate w w'.
  Proof using WG ord_perm.
    intros Hn. induction fuel as [|fuel IH]; intros w w' Gd N; cbn [repeat_node]; (destruct (decide (node ∈ wl w)) as [e|ne]; [|intros [= <-]; split; auto; split; [apply wle_refl|auto]]); [discriminate|].
    destruct (handle _ _ _ _ _) as [w1|] eqn:E1; cbn [mbind option_bind]; [|discriminate]. intros E2.
    destruct (handle_good node w w1) as (G1 & L1 & N1); auto.
    destruct (IH w1 w' G1 N1 E2) as (G2 & L2 & N2). split; [auto|]. split; [eapply wle_trans; eauto|auto].
  Qed.
  Lemma sweep_good fuel idx : forall l cur w w', cur < n -> (forall y, y ∈ l -> y < n) -> good none w -> newE w = ∅ -> sweep ord G c fuel idx cur l w = Some w' -> gstate w w'.
  Proof using WG ord_perm.
    induction l as [|next l IH]; intros cur w w' Hc Hl Gd N; cbn [sweep]; [apply repeat_node_good; auto|].
    assert (Hn : next < n) by (apply Hl; left). assert (Hl' : forall y, y ∈ l -> y < n) by (intros; apply Hl; right; auto).
    destruct (decide (idx cur = idx next)).
    - pose proof Gd as [H I F]. assert (M : let '(w1, u) := wunify c cur next w in
        shape w1 /\ Inv (fun x => x = u) None w1 /\ FI w1 /\ wle w w1 /\ newE w1 = ∅ /\ wl w1 = wl w /\ u < n /\ rt w1 cur = u /\ rt w1 next = u).
      { destruct (decide (rt w cur = rt w next)) as [e1|ne1].
        - pose proof (wunify_raw c n kd cur next w H Hc Hn) as K. destruct (wunify c cur next w) as [w1 u]. destruct K as [(_ & -> & ->)|(ne1 & _)]; [|congruence].
          split; [auto|]. split; [apply (Inv_weaken G c n kd WG none); cbn [WProofs3.exc_in]; auto; tauto|]. split; [auto|]. split; [apply wle_refl|]. repeat split; auto. apply (rt_lt c n kd); auto.
        - pose proof (wunify_first G c n kd WG (fun _ _ => True) (fun _ => True) (fun _ => Logic.I) (fun _ _ _ _ _ _ _ _ _ => Logic.I) cur next w H Logic.I Hc Hn ne1 Logic.I Logic.I) as K.
          destruct (wunify c cur next w) as [w1 u]. destruct K as (M & M1 & M2 & _).
          destruct (good_mstep G c n kd WG none none None w w1 u H Logic.I I F M) as (H2 & I2 & F2 & L2).
          split; [auto|]. split; [apply (Inv_weaken G c n kd WG (fun x => False \/ x = u)); cbn [WProofs3.exc_in]; auto; tauto|]. split; [auto|]. split; [auto|].
          split; [rewrite (ms_newE _ _ _ _ _ _ _ _ _ M); auto|]. split; [apply (ms_wl _ _ _ _ _ _ _ _ _ M)|]. split; [apply (ms_lt _ _ _ _ _ _ _ _ _ M)|auto]. }
      destruct (wunify c cur next w) as [w1 u]. destruct M as (H1 & I1 & F1 & L1 & N1 & W1 & Lu & Ru1 & Ru2). intros E.
      set (old := if decide (u = cur) then next else cur) in *. set (w2 := push u (setW (wl w1 ∖ {[old]}) w1)) in *.
      assert (G2 : good none w2).
      { unfold w2, push. apply (good_setW G c n kd WG (fun x => x = u) none w1); [split; auto| |].
        - intros x. rewrite elem_of_union, elem_of_singleton. intros [->|Hx]; auto. apply elem_of_difference in Hx as [Hx _]. apply (sh_wl _ _ _ w1 H1); auto.
        - intros r Hr Rr. cbn. rewrite elem_of_union, elem_of_singleton, elem_of_difference, elem_of_singleton. intros K _. split; [|tauto].
          intros K1. apply K. right. split; auto. intros ->. apply K. left. unfold old in *. destruct (decide (u = cur)); congruence. }
      destruct (IH u w2 w' Lu Hl' G2 N1 E) as (G3 & L3 & N3). split; [auto|]. split; [|auto].
      eapply wle_trans; [exact L1|]. eapply wle_trans; [|exact L3]. unfold w2, push. eapply wle_trans; [apply wle_wl|apply wle_wl].
    - destruct (repeat_node _ _ _ _ _ _) as [w1|] eqn:E1; cbn [mbind option_bind]; [|discriminate]. intros E2.
      destruct (repeat_node_good fuel cur Hc w w1 Gd N E1) as (G1 & L1 & N1).
      destruct (IH next w1 w' Hn Hl' G1 N1 E2) as (G2 & L2 & N2). split; [auto|]. split; [eapply wle_trans; eauto|auto].
  Qed.
  Lemma scc_spec w : n < MAX -> shape w -> exists t, scc ord MAX w = Some t /\
    Verif.Tarjan.Spec.scc_result n (rt w) (fun v => items ord (edges (tb w) v) w) (Verif.Tarjan.Model.sccsFinished t) (Verif.Tarjan.Model.sccIndex t) (Verif.Tarjan.Model.rto t) (fun _ => 0).
  Proof using ord_perm.
    intros HM H. unfold scc. rewrite (sh_npo _ _ _ w H). apply Verif.Tarjan.Properties.tarjan_correct; auto.
    intros v x [Hv Rv] Hx. apply items_in in Hx; auto. destruct (sh_edges _ _ _ w H _ _ Hx) as (_ & _ & Lx). split; [apply (rt_lt c n kd); auto|apply (rt_rt c n kd); auto].
  Qed.
  Lemma scc_rto w t y : n < MAX -> shape w -> scc ord MAX w = Some t -> y ∈ rev (Verif.Tarjan.Model.rto t) -> y < n /\ rt w y = y.
  Proof using ord_perm.
    intros HM H E. destruct (scc_spec w HM H) as (t' & E' & R). rewrite E in E'. injection E' as <-.
    rewrite elem_of_list_In, <- in_rev, <- elem_of_list_In. intros Hy. apply (Verif.Tarjan.Spec.r_nodes _ _ _ _ _ _ _ R) in Hy. exact Hy.
  Qed.
  Lemma run_topological_good fuel : n < MAX -> forall w w', good none w -> newE w = ∅ -> run_topological ord MAX G c fuel w = Some w' -> gstate w w' /\ wl w' = ∅.
  Proof using WG ord_perm.
    intros HM. induction fuel as [|fuel IH]; intros w w' Gd N; cbn [run_topological]; (destruct (decide (wl w = ∅)) as [e|ne]; [intros [= <-]; split; auto; split; [auto|]; split; [apply wle_refl|auto]|]); [discriminate|].
    destruct (scc ord MAX w) as [t|] eqn:Es; cbn [mbind option_bind]; [|discriminate].
    assert (Ht := fun y => scc_rto w t y HM (g_shape _ _ _ _ _ _ Gd) Es).
    assert (Kt : forall w1, match rev (Verif.Tarjan.Model.rto t) with [] => Some w | cur :: l => sweep ord G c (S fuel) (Verif.Tarjan.Model.sccIndex t) cur l (tickw w) end = Some w1 -> gstate w w1).
    { intros w1. destruct (rev _) as [|cur l]; [intros [= <-]; split; [auto|]; split; [apply wle_refl|auto]|]. intros E.
      destruct (good_quiet G c n kd WG _ _ _ Gd (quiet_tickw w)) as [Gt Lt].
      destruct (sweep_good (S fuel) (Verif.Tarjan.Model.sccIndex t) l cur (tickw w) w1) as (G1 & L1 & N1); auto.
      - apply Ht. left.
      - intros y Hy. apply Ht. right. auto.
      - split; [auto|]. split; [eapply wle_trans; eauto|auto]. }
    destruct (match rev (Verif.Tarjan.Model.rto t) with [] => Some w | cur :: l => _ end) as [w1|]; cbn [mbind option_bind]; [|discriminate].
    destruct (Kt w1 eq_refl) as (G1 & L1 & N1). intros E2. destruct (IH w1 w' G1 N1 E2) as [(G2 & L2 & N2) W2].
    split; [|auto]. split; [auto|]. split; [eapply wle_trans; eauto|auto].
  Qed.
End WDrive.
