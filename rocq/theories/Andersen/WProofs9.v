(** The worklist solver: the whole visit of a node. *)
From stdpp Require Import base list list_numbers fin_sets gmap.
From Coq Require Import Lia.
From Verif.Andersen Require Import Model Spec Proofs Proofs2 Proofs3 Proofs4 Proofs5 WModel WProofs WProofs2 WProofs3 WProofs4 WProofs5 WProofs6 WProofs7 WProofs8.

Section WVisit4.
  Context (ord : forall A : Type, nat -> list A -> list A) (ord_perm : forall A k (l : list A), ord A k l ≡ₚ l).
  Context (G : prog) (c : cfg) (n : nat) (kd : nat -> kind) (WG : wf_prog n kd G).
  Notation shape := (shape c n kd). Notation sstep := (sstep G c). Notation step := (step G c n kd). Notation ok := (ok G c n kd).
  Notation vld := (vld n kd). Notation rt := WModel.rt. Notation Xc := (Xc G). Notation Ic := (Ic G).
  Notation wle := (wle n). Notation Inv := (Inv G c n kd). Notation inv_at := (inv_at G c kd). Notation ob := (ob G kd). Notation exc_in := (exc_in n).
  Notation merged := (merged c). Notation FI := (FI G). Notation good := (good G c n kd). Notation Prom := (Prom c n).
  Notation mstep := (mstep G c n kd (fun _ _ => True) (fun _ => True)). Notation handled := WProofs7.handled.

  (** escaping queues no edges *)
  Lemma wfor_newE {A} (l : list A) f : (forall x w, newE (f x w) = newE w) -> forall w, newE (wfor l f w) = newE w.
  Proof using. intros H. unfold wfor. induction l as [|x l IH]; intros w; cbn [fold_left]; auto. rewrite IH. auto. Qed.
  Lemma mark_pe_push_newE i w : newE (mark_pe_push i w) = newE w.
  Proof using. unfold mark_pe_push. destruct (mark_pe _ _) as [p []]; auto. Qed.
  Lemma mark_ext_push_newE i w : newE (mark_ext_push i w) = newE w.
  Proof using. unfold mark_ext_push. destruct (mark_ext _ _) as [p []]; auto. Qed.
  Lemma escape_newE y w : newE (escape_pointee G y w) = newE w.
  Proof using.
    unfold escape_pointee. destruct (mark_escaped y (P w)) as [p []]; auto.
    set (w1 := setP p w). assert (K : newE (match kindof (P w1) y with FunctionMO => wescaped_function G y w1 | _ => w1 end) = newE w).
    { destruct (kindof (P w1) y); auto. unfold wescaped_function, wsome. rewrite !wfor_newE; auto.
      - intros [i|] w2; auto. destruct (is_ext _ _); auto using mark_ext_push_newE.
      - intros [i|] w2; auto. destruct (has_pe _ _); auto using mark_pe_push_newE. }
    destruct (_ && _); auto.
  Qed.

  Lemma pip_mark_cases node w : shape w -> node < n -> rt w node = node ->
    pip_mark ord c node w = w \/ (node ∉ fpe (P w) /\ pip_mark ord c node w = setW (wl w) (mark_pe_push node w) /\
      exists q, q ∈ edges (tb w) node /\ Pp w q).
  Proof using ord_perm.
    intros H Hn R. unfold pip_mark. destruct (_ && _) eqn:Ec; auto. right. apply andb_true_iff in Ec as [Ec Ee]. apply andb_true_iff in Ec as [_ Ec].
    apply negb_true_iff, bool_decide_eq_false in Ec. fold (rt w node) in Ec. rewrite R in Ec.
    split; auto. split.
    - rewrite (mark_pe_push_eq c n kd), R, decide_False by auto. unfold mark_pe. fold (rt w node). rewrite R, decide_False by auto. destruct w; auto.
    - apply existsb_exists in Ee as (q & Q1 & Q2). exists q. apply elem_of_list_In, items_in in Q1; auto. apply pe_iff in Q2. auto.
  Qed.
  Lemma pip_mark_good node w : node < n -> rt w node = node -> good (fun x => x = node) w ->
    let w1 := pip_mark ord c node w in
    good (fun x => x = node) w1 /\ wle w w1 /\ newE w1 = newE w /\ wl w1 = wl w /\ df w1 = df w /\ pts (P w1) = pts (P w) /\ fext (P w1) = fext (P w) /\ rt w1 node = node.
  Proof using WG ord_perm.
    intros Hn R Gd. pose proof Gd as [H I F]. destruct (pip_mark_cases node w H Hn R) as [->|(Nf & -> & _)]; cbn zeta; [split; [auto|]; split; [apply wle_refl|]; auto 10|].
    pose proof (ok_mark_pe_push G c n kd (fun _ => False) node Hn w H) as S. destruct (good_ss G c n kd WG _ _ _ _ Gd S) as [G1 L1].
    pose proof (rt_le _ _ node (ss_le _ _ _ _ _ (proj2 S))) as R1.
    rewrite (mark_pe_push_eq c n kd), R, decide_False in * by auto.
    split; [|split; [eapply wle_trans; [exact L1|apply wle_wl]|auto 10]].
    apply (good_setW G c n kd WG (fun x => x = node)); auto.
    - intros x Hx. apply (sh_wl _ _ _ w H); auto.
    - intros r Hr _ K1 K2. split; auto. cbn. rewrite elem_of_union, elem_of_singleton. tauto.
  Qed.
  Lemma wremove_good node w : node < n -> rt w node = node -> good (fun x => x = node) w -> E w node ->
    (forall y, y ∈ pts (P w) node -> Es w y) -> let w1 := wremove c node w in
    good (fun x => x = node) w1 /\ wle w w1 /\ newE w1 = newE w /\ wl w1 = wl w /\ tb w1 = tb w /\ fesc (P w1) = fesc (P w) /\ fext (P w1) = fext (P w) /\ fpe (P w1) = fpe (P w) /\
    extseen (df w1) = extseen (df w) /\ peseen (df w1) = peseen (df w) /\ pts (P w1) node = ∅ /\ rt w1 node = node.
  Proof using WG.
    intros Hn R [H I F] Ex Es1. cbn zeta. set (w1 := wremove c node w).
    assert (EP : P w1 = set_pts (upd (pts (P w)) node ∅) (P w)).
    { unfold w1, wremove, remove_all_pointees. fold (rt w node). rewrite R. destruct (dp c); auto. }
    assert (ET : tb w1 = tb w) by (unfold w1, wremove; destruct (dp c); auto).
    assert (EN : newE w1 = newE w) by (unfold w1, wremove; destruct (dp c); auto).
    assert (EW : wl w1 = wl w) by (unfold w1, wremove; destruct (dp c); auto).
    assert (EC : cy w1 = cy w) by (unfold w1, wremove; destruct (dp c); auto).
    assert (Exs : extseen (df w1) = extseen (df w)) by (unfold w1, wremove; destruct (dp c); auto).
    assert (Ees : peseen (df w1) = peseen (df w)) by (unfold w1, wremove; destruct (dp c); auto).
    assert (Enp : forall r, r <> node -> newp (df w1) r = newp (df w) r).
    { intros r Hr. unfold w1, wremove. destruct (dp c); auto. cbn. apply upd_ne; auto. }
    assert (Etr : forall r, r <> node -> (r ∈ tracked (df w1) <-> r ∈ tracked (df w))).
    { intros r Hr. unfold w1, wremove. destruct (dp c); [|tauto]. cbn. rewrite elem_of_difference, elem_of_singleton. tauto. }
    assert (Ert : forall x, rt w1 x = rt w x) by (intros; unfold WModel.rt; rewrite EP; auto).
    assert (Ep : forall r, pts (P w1) r = if decide (r = node) then ∅ else pts (P w) r) by (intros; rewrite EP; auto).
    assert (EE : forall x, E w1 x <-> E w x) by (intros x; unfold E; rewrite Ert, EP; tauto).
    assert (EPp : forall x, Pp w1 x <-> Pp w x) by (intros x; unfold Pp; rewrite Ert, EP; tauto).
    assert (EEs : forall x, Es w1 x <-> Es w x) by (intros x; unfold Es; rewrite EP; tauto).
    assert (L0 : forall a b, Lk0 w a b -> Lk0 w1 a b).
    { intros a b. unfold Lk0. rewrite !EE, !EPp, !Ert, ET. intros [K|[(q & K1 & K2)|K]]; auto. right. left. exists q. rewrite Ert. auto. }
    assert (L : wle w w1).
    { split; auto; try (intros *; rewrite ?Ert, ?ET, ?EE, ?EPp, ?EEs; auto; fail).
      - intros x y Hx [[K1 K2]|K]; [left; rewrite EE, EEs; auto|]. unfold So, Pt, pset. fold (rt w1 x). rewrite Ert, Ep. destruct (decide (rt w x = node)) as [e|]; [left|right; auto].
        rewrite EE, EEs. unfold E in *. rewrite e. rewrite R in Ex. split; auto. apply Es1. unfold Pt, pset in K. fold (rt w x) in K. rewrite e in K. auto.
      - intros x Hx. unfold Sas. rewrite Ert, EP. auto.
      - intros x Hx. unfold Las. rewrite Ert, EP. auto.
      - intros a b Ha Hb [K|(x & y & K1 & K2 & K3)]; [left; auto|]. right. exists x, y. rewrite EN, !Ert. auto. }
    repeat (split; [auto; try (rewrite EP; auto; fail); fail|]).
    split; [|split; [auto|split; [auto|split; [auto|split; [auto|]]]]].
    - split.
      + pose proof (wf_remove_all node (P w) (sh_wf _ _ _ w H)) as W. rewrite (sh_npo _ _ _ w H) in W. specialize (W Hn). destruct H as [S1 S2 S3 S4 S5 S6 S7 S8 S9 S10 S11]. split; rewrite ?ET, ?EN, ?EW, ?EC; auto; try (intros *; rewrite Ert; eauto; fail).
        * unfold w1, wremove. destruct (dp c); auto.
        * rewrite EP. auto.
        * rewrite EP. auto.
        * intros D r y. rewrite Ep. destruct (decide (r = node)) as [->|Ne]; [|rewrite Enp by auto; auto].
          unfold w1, wremove. rewrite D. cbn. rewrite upd_eq. auto.
      + intros r Hr Rr. destruct (decide (r = node)) as [->|Ne].
        * apply (inv_at_mono G c n kd WG (fun x => x = node) (fun x => x = node) None w w1); cbn [WProofs3.exc_in]; auto; rewrite ?ET; auto.
          -- unfold Sas. rewrite Ert, EP. auto.
          -- unfold Las. rewrite Ert, EP. auto.
          -- intros y [K _]. rewrite Ep, decide_True in K by auto. apply elem_of_empty in K. tauto.
          -- unfold SX, clean. rewrite Exs. destruct (dp c); tauto.
          -- unfold SE, clean. rewrite Ees. destruct (dp c); tauto.
          -- rewrite EP. destruct (I node Hn R) as [_ XS _ _ _ _ _]. unfold SX, clean in *. rewrite Exs. destruct (dp c); tauto.
          -- rewrite EP. destruct (I node Hn R) as [_ _ XS _ _ _ _]. unfold SE, clean in *. rewrite Ees. destruct (dp c); tauto.
          -- intros [_ []]. auto.
          -- intros [_ []]. auto.
          -- intros [_ []]. auto.
        * rewrite Ert in Rr. apply (inv_at_same G c n kd WG (fun x => x = node) _ None w w1); cbn [WProofs3.exc_in]; auto; [rewrite Ert; auto| |unfold clean; rewrite EW; auto].
          split; rewrite ?ET, ?Ep, ?Enp, ?Exs, ?Ees, ?decide_False by auto; try rewrite EP; auto.
      + apply (FI_aux G n kd WG w w1); auto. rewrite EP. auto.
    - split; [rewrite EP; auto|]. split; [rewrite EP; auto|]. split; [rewrite EP; auto|]. split; [auto|]. split; [auto|]. split; [rewrite Ep, decide_True by auto; auto|rewrite Ert; auto].
  Qed.

  Lemma Es_esc w S y : shape w -> (forall z, z ∈ S -> vld z) -> y ∈ S -> Es (wforset ord S (escape_pointee G) w) y.
  Proof using WG ord_perm.
    intros H V Hy. refine (est_wforset ord ord_perm G c n kd (fun _ => False) S (escape_pointee G) (fun y w => Es w y) _ _ _ w y H Hy).
    - intros x Hx. apply ok_escape_pointee; auto.
    - intros; apply stable_Es.
    - intros x w1 Hx H1. apply (est_escape_pointee G c n kd WG); auto.
  Qed.
  Lemma visit_good node np0 nx w w' : good (fun x => x = node) w -> node < n -> rt w node = node ->
    (forall y, y ∈ pts (P w) node -> (dp c = true /\ node ∈ tracked (df w) /\ y ∉ newp (df w) node) \/ y ∈ np0) ->
    (forall y, y ∈ np0 -> y ∈ pts (P w) node) ->
    (node ∉ wl w -> node ∈ fext (P w) -> (dp c = true /\ node ∈ extseen (df w)) \/ nx = true) ->
    (nx = true -> node ∈ fext (P w)) -> newE w = ∅ ->
    visit ord G c node np0 nx w = Some w' -> good (fun _ => False) w' /\ wle w w' /\ newE w' = ∅.
  Proof using WG ord_perm.
    intros Gd Hn Rn A1 A2 A3 A4 N0 Ev. unfold visit in Ev.
    pose proof (pip_mark_good node w Hn Rn Gd) as K. cbn zeta in K. set (w1 := pip_mark ord c node w) in *.
    destruct K as (G1 & L1 & N1 & W1 & D1 & P1 & X1 & R1). pose proof (g_shape _ _ _ _ _ _ G1) as H1.
    set (npe := pe_new c w1 node) in *. set (pesc := has_pe (P w1) node) in *.
    assert (Hnpe : npe = true -> pesc = true).
    { unfold npe, pe_new, pesc. intros K. apply andb_true_iff in K. tauto. }
    assert (Hpesc : pesc = true <-> node ∈ fpe (P w1)).
    { unfold pesc. rewrite pe_iff. fold (rt w1 node). rewrite R1. tauto. }
    assert (Hpe : node ∈ fpe (P w1) -> (dp c = true /\ node ∈ peseen (df w1)) \/ npe = true).
    { intros K. apply Hpesc in K. unfold npe, pe_new. fold pesc. rewrite K. destruct (dp c); cbn; auto. case_bool_decide; auto. }
    assert (Pr1 : Prom node np0 nx npe w1).
    { split; rewrite ?P1, ?D1, ?W1, ?X1; auto. - intros _ K. rewrite <- D1. auto. - tauto. }
    assert (V0 : forall y, y ∈ np0 -> vld y) by (intros y Hy; apply (pts_vld c n kd w node); [apply Gd|auto]).
    set (S := if npe then pset (P w1) node else np0) in *.
    assert (Ps1 : pset (P w1) node = pts (P w1) node) by (unfold pset; fold (rt w1 node); rewrite R1; auto).
    assert (VS : forall y, y ∈ S -> vld y).
    { intros y. unfold S. destruct npe; auto. rewrite Ps1. apply (pts_vld c n kd); auto. }
    set (w2 := if pesc then wforset ord S (escape_pointee G) w1 else w1) in *.
    assert (S2 : step (fun x => x = node) w1 w2).
    { unfold w2. destruct pesc; [|apply step_refl; auto]. apply ok_wforset; auto. intros y Hy. apply ok_escape_pointee; auto. }
    destruct (good_ss G c n kd WG _ _ _ _ G1 S2) as [G2 L2]. pose proof (g_shape _ _ _ _ _ _ G2) as H2.
    pose proof (Prom_ss G c n kd (fun x => x = node) node np0 nx npe w1 w2 eq_refl H1 (proj2 S2) Pr1) as Pr2.
    pose proof (ss_prot _ _ _ _ _ (proj2 S2) node eq_refl) as Pt2.
    assert (N2 : newE w2 = ∅).
    { rewrite <- N0, <- N1. unfold w2. destruct pesc; auto. unfold wforset. rewrite wfor_newE; auto. intros; apply escape_newE. }
    assert (Es2 : pesc = true -> forall y, y ∈ S -> Es w2 y).
    { intros Hp y Hy. unfold w2. rewrite Hp. apply Es_esc; auto. }
    (* every pointee of an escaping node is escaped *)
    assert (All2 : pesc = true -> forall y, y ∈ pts (P w2) node -> Es w2 y).
    { intros Hp y. rewrite Pt2. intros Hy. destruct (Hpe (proj1 Hpesc Hp)) as [[Dp Hs]|Hb].
      - destruct npe eqn:En; [apply Es2; auto; unfold S; rewrite Ps1; auto|].
        rewrite P1 in Hy. destruct (A1 y Hy) as [(_ & T1 & T2)|]; [|apply Es2; auto]. apply (le_Es _ _ _ L2).
        destruct (g_Inv _ _ _ _ _ _ G1 node Hn R1) as [_ _ _ Ipe _ _ _]. apply Ipe; [unfold SE; rewrite Dp; auto|].
        unfold SP. rewrite Dp, D1, P1. auto.
      - apply Es2; auto. unfold S. rewrite Hb, Ps1. auto. }
    assert (K3 : let '(w3, np) := if pip c && implicit (P w2) node then (wremove c node w2, ∅) else (w2, np0) in
      good (fun x => x = node) w3 /\ wle w2 w3 /\ newE w3 = ∅ /\ Prom node np nx npe w3 /\ (forall y, y ∈ np -> vld y) /\
      (pesc = true -> forall y, y ∈ pts (P w3) node -> Es w3 y) /\ (pesc = true <-> node ∈ fpe (P w1)) /\ peseen (df w3) = peseen (df w1)).
    { destruct (pip c && implicit (P w2) node) eqn:Ei.
      - apply andb_true_iff in Ei as [_ Ei]. apply andb_true_iff in Ei as [Ei1 Ei2]. apply ext_iff in Ei1. apply pe_iff in Ei2.
        destruct (pr_root _ _ _ _ _ _ _ Pr2) as [_ R2]. fold (rt w2 node) in Ei1, Ei2. rewrite R2 in Ei2.
        assert (Hp : pesc = true).
        { destruct pesc eqn:Hp; auto. unfold w2 in Ei2. apply Hpesc in Ei2. auto. }
        pose proof (wremove_good node w2 Hn R2 G2 Ei1 (All2 Hp)) as K. cbn zeta in K. set (w3 := wremove c node w2) in *.
        destruct K as (G3 & L3 & N3 & W3 & T3 & F3 & E3 & Pe3 & Xs3 & Es3 & Pt3 & R3).
        split; [auto|]. split; [auto|]. split; [congruence|]. split; [|split; [|split; [|split; [auto|]]]].
        + destruct Pr2 as [Q1 Q2 Q3 Q4 Q5 Q6 Q7]. split; rewrite ?Pt3, ?W3, ?E3, ?Pe3, ?Xs3, ?Es3; auto.
        + intros y []%elem_of_empty.
        + intros _ y. rewrite Pt3. intros []%elem_of_empty.
        + rewrite Es3. apply (ss_peseen _ _ _ _ _ (proj2 S2)).
      - split; [auto|]. split; [apply wle_refl|]. split; [auto|]. split; [auto|]. split; [auto|]. split; [auto|]. split; [auto|].
        apply (ss_peseen _ _ _ _ _ (proj2 S2)). }
    destruct (if pip c && implicit (P w2) node then (wremove c node w2, ∅) else (w2, np0)) as [w3 np].
    destruct K3 as (G3 & L3 & N3 & Pr3 & V3 & All3 & _ & Es3).
    destruct (good_quiet G c n kd WG _ _ _ G3 (quiet_tickw w3)) as [Gt Lt]. pose proof (Prom_quiet c n node np nx npe _ _ (quiet_tickw w3) Pr3) as Prt.
    destruct (propagate _ _ _ _ _ _ _ _) as [[w4 d]|] eqn:Ep; cbn [mbind option_bind] in Ev; [|discriminate].
    assert (L03 : wle w w3) by (eapply wle_trans; [exact L1|]; eapply wle_trans; eauto).
    assert (Pe3 : pesc = true -> Pp w3 node).
    { intros Hp. unfold Pp. destruct (pr_root _ _ _ _ _ _ _ Pr3) as [_ R3]. apply (le_Pp _ _ _ L3); auto. apply (le_Pp _ _ _ L2); auto. unfold Pp. rewrite R1. apply Hpesc; auto. }
    refine (_ (propagate_good ord ord_perm G c n kd WG node np nx npe pesc V3 _ _ _ _ Gt Prt Pe3 _ _ Ep)); [intros (L4 & N4 & K4)|..].
    2: { intros q Hq. apply items_in in Hq; auto. apply (sh_edges _ _ _ w3 (g_shape _ _ _ _ _ _ G3) _ _ Hq). }
    2: { intros q Hq. left. apply items_in; auto. }
    assert (L04 : wle w w4) by (eapply wle_trans; [exact L03|]; eapply wle_trans; eauto).
    destruct d.
    { injection Ev as <-. split; [auto|]. split; [auto|]. rewrite N4. auto. }
    destruct K4 as (G4 & Pr4 & Hd4 & Pt4 & Es4). pose proof (g_shape _ _ _ _ _ _ G4) as H4.
    set (I := fun x => x = node).
    destruct (do_stores_spec ord ord_perm G c n kd I node np nx V3 w4 H4) as [S5 E5]. set (w5 := do_stores ord node np nx w4) in *. pose proof (proj1 S5) as H5.
    destruct (do_sas_spec ord ord_perm G c n kd I node np V3 w5 H5) as [S6 E6]. set (w6 := do_sas ord node np w5) in *. pose proof (proj1 S6) as H6.
    destruct (do_loads_spec ord ord_perm G c n kd I node np nx V3 w6 H6) as [S7 E7]. set (w7 := do_loads ord node np nx w6) in *. pose proof (proj1 S7) as H7.
    destruct (do_las_spec ord ord_perm G c n kd I node np V3 w7 H7) as [S8 E8]. set (w8 := do_las ord node np w7) in *. pose proof (proj1 S8) as H8.
    destruct (do_calls_spec ord ord_perm G c n kd WG I node np nx V3 w8 H8) as [S9 E9]. set (w9 := do_calls ord G node np nx w8) in *. pose proof (proj1 S9) as H9.
    assert (W : forall a b, step I a b -> wle a b) by (intros a b S'; apply (ss_wle G c n I a b); apply S').
    assert (T : forall a b, step I a b -> tb b = tb a) by (intros a b S'; apply (ss_tb _ _ _ _ _ (proj2 S'))).
    assert (St : step I w4 w9) by (eauto 8 using step_trans).
    assert (W59 : wle w5 w9) by (eauto 8 using wle_trans). assert (W69 : wle w6 w9) by (eauto 8 using wle_trans).
    assert (W79 : wle w7 w9) by (eauto 8 using wle_trans). assert (W89 : wle w8 w9) by (eauto 8 using wle_trans). assert (W49 : wle w4 w9) by auto.
    destruct (good_ss G c n kd WG _ _ _ _ G4 St) as [G9 _].
    pose proof (Prom_ss G c n kd I node np nx npe w4 w9 eq_refl H4 (proj2 St) Pr4) as Pr9.
    assert (T9 : tb w9 = tb w4) by auto. assert (T9' : tb w9 = tb w8) by auto.
    assert (T6 : tb w6 = tb w4) by (rewrite (T _ _ S6); auto). assert (T8 : tb w8 = tb w4) by congruence.
    assert (SL : forall a b, step I a b -> (Sas b node -> Sas a node) /\ (Las b node -> Las a node)).
    { intros a b S'. pose proof (ss_le _ _ _ _ _ (proj2 S')) as Le. pose proof (le_static _ _ Le) as Sta. unfold Sas, Las.
      rewrite (rt_le a b node Le), (st_sas _ _ Sta), (st_las _ _ Sta). auto. }
    assert (S59 : step I w5 w9) by (eauto 8 using step_trans). assert (S79 : step I w7 w9) by (eauto 8 using step_trans).
    assert (O : ob None w9 node (fun y => y ∈ np) (nx = true)).
    { split.
      - intros q. rewrite T9. intros Hq. right. destruct (Hd4 q Hq) as [Q1 Q2]. destruct (sh_edges _ _ _ w4 H4 _ _ Hq) as (_ & _ & Lq).
        split; intros; [apply (le_So _ _ _ W49)|apply (le_E _ _ _ W49)]; auto.
      - intros v. rewrite T9. intros Hv. destruct (E5 v Hv) as [Q1 Q2]. destruct (sh_stc _ _ _ w4 H4 _ _ Hv) as (_ & _ & Lq).
        split; intros; [apply (le_Lk _ _ _ W59); auto; apply V3; auto|apply (le_Pp _ _ _ W59); auto].
      - intros v. rewrite T9. intros Hv. rewrite <- T6 in Hv. destruct (E7 v Hv) as [Q1 Q2]. destruct (sh_ldc _ _ _ w6 H6 _ _ Hv) as (_ & _ & Lq).
        split; intros; [apply (le_Lk _ _ _ W79); auto; apply V3; auto|apply (le_E _ _ _ W79); auto].
      - intros k. rewrite T9. intros Hk. rewrite <- T8 in Hk. exact (E9 k Hk).
      - intros y Ks Hy. destruct (E6 (proj1 (SL _ _ S59) Ks) y Hy); [left; apply (le_E _ _ _ W69); auto; apply V3; auto|right; apply (le_Pp _ _ _ W69); auto].
      - intros y Ks Hy. destruct (E8 (proj2 (SL _ _ S79) Ks) y Hy); [left; apply (le_Pp _ _ _ W89); auto; apply V3; auto|right; apply (le_Pp _ _ _ W89); auto]. }
    assert (Esc9 : pesc = true -> forall y, y ∈ pts (P w9) node -> Es w9 y).
    { intros Hp y. rewrite (ss_prot _ _ _ _ _ (proj2 St) node eq_refl), Pt4. intros Hy. apply (le_Es _ _ _ W49), (le_Es _ _ _ L4). exact (All3 Hp y Hy). }
    destruct (finish_good G c n kd WG node np nx npe w9 G9 Pr9 O) as (G10 & L10 & N10).
    { intros Hb. apply Esc9; auto. }
    { intros Dp. rewrite (ss_peseen _ _ _ _ _ (proj2 St)), Es4. cbn [df tickw setP]. rewrite Es3. intros Hs y Hy. apply Esc9.
      - apply Hpesc. destruct (g_Inv _ _ _ _ _ _ G1 node Hn R1) as [_ _ Ies _ _ _ _]. apply Ies. unfold SE. rewrite Dp. auto.
      - apply (pr_np _ _ _ _ _ _ _ Pr9); auto. }
    destruct (flush_good ord ord_perm G c n kd WG _ _ G10 Ev) as (G11 & L11 & N11).
    split; [auto|]. split; [|auto]. eapply wle_trans; [exact L04|]. eapply wle_trans; [exact W49|]. eapply wle_trans; eauto.
  Qed.
End WVisit4.
