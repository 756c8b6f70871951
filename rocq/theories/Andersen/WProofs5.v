(** The worklist solver: sequences of unifications, and the two online cycle detections. *)
From stdpp Require Import base list list_numbers fin_sets gmap.
From Coq Require Import Lia.
From Verif.Andersen Require Import Model Spec Proofs Proofs2 Proofs3 Proofs4 Proofs5 WModel WProofs WProofs2 WProofs3 WProofs4.

Section WMerge.
  Context (ord : forall A : Type, nat -> list A -> list A) (ord_perm : forall A k (l : list A), ord A k l ≡ₚ l).
  Context (G : prog) (c : cfg) (n : nat) (kd : nat -> kind) (WG : wf_prog n kd G).
  Notation shape := (shape c n kd). Notation sstep := (sstep G c). Notation step := (step G c n kd). Notation ok := (ok G c n kd).
  Notation vld := (vld n kd). Notation rt := WModel.rt. Notation Xc := (Xc G). Notation Ic := (Ic G).
  Notation wle := (wle n). Notation Inv := (Inv G c n kd). Notation inv_at := (inv_at G c kd). Notation ob := (ob G kd). Notation exc_in := (exc_in n).
  Notation merged := (merged c).

  (** only the cycle detection's own data changes *)
  Record quiet (w w' : ws) : Prop := { q_P : eqv (P w) (P w'); q_tb : tb w' = tb w; q_df : df w' = df w; q_wl : wl w' = wl w; q_newE : newE w' = newE w;
    q_ref : forall i x, refroot (cy w') i = Some x -> (exists j, refroot (cy w) j = Some x) \/ x < npo (P w) }.
  Lemma quiet_refl w : quiet w w.
  Proof using. split; eauto. apply eqv_refl. Qed.
  Lemma quiet_trans w1 w2 w3 : quiet w1 w2 -> quiet w2 w3 -> quiet w1 w3.
  Proof using.
    intros [[[]] A1 A2 A3 A4 A5] [[[]] B1 B2 B3 B4 B5]. split; try congruence; [eapply eqv_trans; split; eauto; split; eauto|].
    intros i x Hx. destruct (B5 i x Hx) as [[j Hj]|Hj]; [eauto|]. right. congruence.
  Qed.
  Lemma quiet_tickw w : quiet w (tickw w).
  Proof using. split; eauto. apply eqv_bump. Qed.
  Lemma quiet_setC w k : (forall i x, refroot k i = Some x -> (exists j, refroot (cy w) j = Some x) \/ x < npo (P w)) -> quiet w (setC k w).
  Proof using. split; auto. apply eqv_refl. Qed.
  Lemma quiet_rt w w' x : quiet w w' -> rt w' x = rt w x.
  Proof using. intros Q. apply rt_le. apply eqv_le, Q. Qed.
  Lemma quiet_shape w w' : quiet w w' -> shape w -> shape w'.
  Proof using.
    intros [Q1 Q2 Q3 Q4 Q5 Q6] H. pose proof (fun i => rt_le w w' i (eqv_le _ _ Q1)) as R. pose proof Q1 as [S E1 E2 E3 E4]. destruct S, H.
    split; try (intros *; rewrite ?Q2, ?Q4, ?Q5, ?R; eauto; fail); try congruence.
    - eapply wf_eqv; eauto.
    - intros D r y. rewrite Q3, E4. auto.
    - intros i x Hx. destruct (Q6 i x Hx) as [[j Hj]|Hj]; [eauto|]. congruence.
  Qed.
  Lemma quiet_wle w w' : quiet w w' -> wle w w'.
  Proof using. intros [Q1 Q2 Q3 Q4 Q5 Q6]. apply wle_stable; auto; [apply eqv_le; auto|rewrite Q5; auto]. Qed.
  Lemma quiet_data w w' x : quiet w w' -> same_data w w' x.
  Proof using.
    intros [[S E1 E2 E3 E4] Q2 Q3 Q4 Q5 Q6]. split; rewrite ?Q2, ?Q3, ?E1, ?E2, ?E3, ?(st_sas _ _ S), ?(st_las _ _ S); auto.
  Qed.
  Lemma quiet_Inv (X : nat -> Prop) exc w w' : shape w -> exc_in exc -> quiet w w' -> Inv X exc w -> Inv X exc w'.
  Proof using WG.
    intros H HE Q. apply (Inv_aux G c n kd WG); auto using quiet_wle, quiet_data. rewrite (q_wl _ _ Q). auto.
  Qed.

  (** *** sequences of merges into [r], of nodes that [L] relates both ways *)
  Context (L : nat -> nat -> Prop) (J : ws -> Prop).
  Context (L_refl : forall x, L x x) (L_trans : forall x y z, L x y -> L y z -> L x z).
  Context (J_edge : forall w r q, J w -> shape w -> q ∈ edges (tb w) r -> L q r).
  Context (J_rt : forall w x, J w -> shape w -> x < n -> L (rt w x) x /\ L x (rt w x)).
  Context (J_merged : forall w w' r nr, J w -> shape w -> merged w w' r nr -> L r nr -> L nr r -> J w').
  Context (J_quiet : forall w w', J w -> quiet w w' -> J w').

  Record mstep (w w' : ws) (r : nat) : Prop := {
    ms_shape : shape w'; ms_J : J w'; ms_wle : wle w w'; ms_lt : r < n; ms_r : rt w' r = r;
    ms_data : forall x, x < n -> rt w' x = x -> x <> r -> same_data w w' x;
    ms_class : forall x y, x < n -> y < n -> rt w' x = rt w' y -> rt w x <> rt w y -> rt w' x = r;
    ms_wl : wl w' = wl w; ms_newE : newE w' = newE w; ms_esc : fesc (P w') = fesc (P w);
    ms_L : exists z, z < n /\ rt w z = z /\ L r z /\ L z r;
    ms_Inv : forall (X : nat -> Prop) exc, exc_in exc -> Inv X exc w -> Inv (fun x => X x \/ x = r) exc w' }.
  Lemma ms_quiet_l w w1 w2 r : shape w -> quiet w w1 -> mstep w1 w2 r -> mstep w w2 r.
  Proof using WG.
    clear L_refl L_trans J_edge J_rt J_merged J_quiet ord_perm ord.
    intros H Q M. pose proof (quiet_rt w w1) as R. destruct M. split; auto.
    - apply (wle_trans n w w1 w2); [apply quiet_wle; auto|auto].
    - intros x Hx R1 R2. apply (sd_trans w w1 w2); [apply quiet_data; auto|auto].
    - intros x y Hx Hy. rewrite <- (R x Q), <- (R y Q). eauto.
        - rewrite ms_wl0. apply Q.
    - rewrite ms_newE0. apply Q.
    - rewrite ms_esc0. apply (q_P _ _ Q).
    - destruct ms_L0 as (z & Z1 & Z2 & Z3). exists z. rewrite <- (R z Q). auto.
    - intros X exc HE I. apply ms_Inv0; auto. apply (quiet_Inv X exc w w1); auto.
  Qed.
  Lemma ms_quiet_r w w1 w2 r : mstep w w1 r -> quiet w1 w2 -> mstep w w2 r.
  Proof using WG J_quiet.
    clear L_refl L_trans J_edge J_rt J_merged ord_perm ord.
    intros M Q. pose proof (fun x => quiet_rt w1 w2 x Q) as R. destruct M. split; auto; try (intros *; rewrite ?R; eauto; fail).
    - eapply quiet_shape; eauto.
    - apply (wle_trans n w w1 w2); [auto|apply quiet_wle; auto].
    - intros x Hx. rewrite R. intros R1 R2. eapply sd_trans; [apply ms_data0; auto|apply quiet_data; auto].
    - rewrite (q_wl _ _ Q). auto.
    - rewrite (q_newE _ _ Q). auto.
    - rewrite (eqv_esc _ _ (q_P _ _ Q)). auto.
    - intros X exc HE I. apply (quiet_Inv _ exc w1 w2); auto.
  Qed.
  Lemma mg_mstep w w' r nr : shape w -> J w -> merged w w' r nr -> L r nr -> L nr r -> mstep w w' r.
  Proof using WG J_merged L_refl.
    clear L_trans J_edge J_rt J_quiet ord_perm ord.
    intros H Jw M L1 L2. pose proof (mg_rt c n kd w w' r nr) as R. destruct (mg_r c n kd w w' r nr H M) as (Lr & Rr & Ln & Rn & Ne). split; auto.
    - eapply mg_shape; eauto.
    - eapply J_merged; eauto.
    - eapply mg_wle; eauto.
    - rewrite (R r H M Lr), decide_False; congruence.
    - intros x Hx R1 R2. eapply mg_data; eauto. intros ->. rewrite (R nr H M Ln), decide_True in R1; auto.
    - intros x y Hx Hy. rewrite (R x H M Hx), (R y H M Hy). destruct (decide (rt w x = nr)); auto. destruct (decide (rt w y = nr)); auto. congruence.
    - apply M.
    - apply M.
    - apply (mg_un _ _ _ _ _ M).
    - exists r. auto.
    - intros X exc HE. eapply mg_Inv; eauto.
  Qed.
  Lemma ms_more w w1 w2 r1 r nr : shape w -> mstep w w1 r1 -> merged w1 w2 r nr -> (r1 = r \/ r1 = nr) -> L r nr -> L nr r -> mstep w w2 r.
  Proof using WG J_merged L_trans.
    clear J_edge J_rt J_quiet ord_perm ord L_refl.
    intros H M1 M C L1 L2. destruct M1. pose proof (mg_rt c n kd w1 w2 r nr) as R.
    destruct (mg_r c n kd w1 w2 r nr ms_shape0 M) as (Lr & Rr & Ln & Rn & Ne).
    assert (Rnr : forall x, x < n -> rt w2 x = x -> x <> nr) by (intros x Hx K ->; rewrite (R nr ms_shape0 M Ln), decide_True in K; auto).
    pose proof (mg_wle _ _ _ _ _ _ _ ms_shape0 M) as LL.
    split; auto.
    - eapply mg_shape; eauto.
    - eapply J_merged; eauto.
    - eapply wle_trans; eauto.
    - rewrite (R r ms_shape0 M Lr), decide_False; congruence.
    - intros x Hx R1 R2. pose proof (Rnr x Hx R1) as R3. eapply sd_trans; [apply ms_data0; auto|eapply mg_data; eauto].
      + apply (le_root _ _ _ LL); auto.
      + destruct C; congruence.
    - intros x y Hx Hy E Nxy. destruct (decide (rt w1 x = rt w1 y)) as [e|e].
      + pose proof (ms_class0 x y Hx Hy e Nxy) as K. rewrite (R x ms_shape0 M Hx), K. destruct C as [-> | ->]; [rewrite decide_False; congruence|rewrite decide_True; auto].
      + rewrite (R x ms_shape0 M Hx) in *. rewrite (R y ms_shape0 M Hy) in E. destruct (decide (rt w1 x = nr)); auto. destruct (decide (rt w1 y = nr)); [auto|congruence].
    - rewrite (mg_wl _ _ _ _ _ M). auto.
    - rewrite (mg_newE _ _ _ _ _ M). auto.
    - rewrite (un_esc _ _ _ _ (mg_un _ _ _ _ _ M)). auto.
    - destruct ms_L0 as (z & Z1 & Z2 & Z3 & Z4). exists z. split; [auto|]. split; [auto|]. destruct C as [-> | ->]; eauto.
    - intros X exc HE I. apply ms_Inv0 in I; auto. apply (mg_Inv G c n kd WG _ exc w1 w2 r nr ms_shape0 HE M) in I.
      eapply (Inv_weaken G c n kd WG); [| |  |exact I]; auto; [eapply mg_shape; eauto|].
      intros x Hx R1 [[K|K]|K]; auto. left. right. pose proof (Rnr x Hx R1). destruct C; congruence.
  Qed.

  (** one call of UnifyPointerObjects *)
  Lemma wunify_first a b w : shape w -> J w -> a < n -> b < n -> rt w a <> rt w b -> L (rt w a) (rt w b) -> L (rt w b) (rt w a) ->
    let '(w', r) := wunify c a b w in mstep w w' r /\ rt w' a = r /\ rt w' b = r /\ (r = rt w a \/ r = rt w b).
  Proof using WG J_merged L_refl.
    intros H Jw Ha Hb Ne L1 L2. pose proof (wunify_raw c n kd a b w H Ha Hb) as K. destruct (wunify c a b w) as [w' r].
    destruct K as [(e & _)|(_ & nr & C & M)]; [tauto|].
    assert (S : mstep w w' r) by (apply (mg_mstep w w' r nr); auto; destruct C as [[-> ->]|[-> ->]]; auto).
    split; auto. rewrite (mg_rt c n kd w w' r nr a H M Ha), (mg_rt c n kd w w' r nr b H M Hb).
    destruct C as [[-> ->]|[-> ->]]; (split; [|split; [|auto]]); [rewrite decide_False|rewrite decide_True|rewrite decide_True|rewrite decide_False]; auto.
  Qed.
  Lemma wunify_more a b w w1 r1 : shape w -> mstep w w1 r1 -> a < n -> b < n -> rt w1 a <> rt w1 b -> (rt w1 a = r1 \/ rt w1 b = r1) ->
    L (rt w1 a) (rt w1 b) -> L (rt w1 b) (rt w1 a) ->
    let '(w', r) := wunify c a b w1 in mstep w w' r /\ rt w' a = r /\ rt w' b = r /\ (r = rt w1 a \/ r = rt w1 b) /\ wle w1 w'.
  Proof using WG J_merged L_trans.
    intros H S1 Ha Hb Ne CC L1 L2. pose proof (ms_shape _ _ _ S1) as H1.
    pose proof (wunify_raw c n kd a b w1 H1 Ha Hb) as K. destruct (wunify c a b w1) as [w' r].
    destruct K as [(e & _)|(_ & nr & C & M)]; [tauto|].
    assert (S : mstep w w' r).
    { apply (ms_more w w1 w' r1 r nr); auto; destruct C as [[-> ->]|[-> ->]]; auto; destruct CC; auto. }
    split; auto. rewrite (mg_rt c n kd w1 w' r nr a H1 M Ha), (mg_rt c n kd w1 w' r nr b H1 M Hb).
    pose proof (mg_wle _ _ _ _ _ _ _ H1 M).
    destruct C as [[-> ->]|[-> ->]]; (split; [|split; [|auto]]); [rewrite decide_False|rewrite decide_True|rewrite decide_True|rewrite decide_False]; auto.
  Qed.

  (** *** lazy cycle detection *)
  Lemma lcd_push_spec w st subset : forall succs stack, exists pushed, lcd_push w st subset succs stack = pushed ++ stack /\
    forall e, e ∈ pushed -> exists x, x ∈ succs /\ e = rt w x /\ e <> subset /\ st e = 0.
  Proof using.
    clear. induction succs as [|x succs IH]; intros stack; cbn [lcd_push fold_left].
    - exists []. split; auto. intros e []%elem_of_nil.
    - set (stk := if decide (rt w x = subset) then stack else if decide (st (rt w x) = 0) then rt w x :: stack else stack).
      destruct (IH stk) as (pu & E & K). fold stk. change (fold_left _ succs stk) with (lcd_push w st subset succs stk). rewrite E.
      assert (K' : forall e, e ∈ pu -> exists y, y ∈ x :: succs /\ e = rt w y /\ e <> subset /\ st e = 0).
      { intros e He. destruct (K e He) as (y & Y1 & Y2). exists y. split; [right|]; auto. }
      unfold stk. destruct (decide (rt w x = subset)); [exists pu; auto|]. destruct (decide (st (rt w x) = 0)); [|exists pu; auto].
      exists (pu ++ [rt w x]). rewrite <- app_assoc. split; auto. intros z. rewrite elem_of_app, elem_of_list_singleton.
      intros [He| ->]; auto. exists x. split; [left|]; auto.
  Qed.
  Record lstate (w0 : ws) (sub0 sup : nat) (stack : list nat) (st : nat -> nat) (subset : nat) (w : ws) : Prop := {
    ls_w : (w = w0 /\ subset = sub0) \/ (mstep w0 w subset /\
             (rt w sup = subset \/ exists p x, p ∈ stack /\ st p = 1 /\ x ∈ edges (tb w) p /\ rt w x = subset));
    ls_shape : shape w; ls_J : J w;
    ls_sub : subset < n /\ rt w subset = subset /\ rt w sub0 = subset;
    ls_elem : forall e, e ∈ stack -> e < n /\ L e sup;
    ls_root : forall e, e ∈ stack -> st e <> 2 -> rt w e = e /\ e <> subset;
    ls_parent : forall pre e post, stack = pre ++ e :: post -> (post = [] /\ e = sup) \/
      exists p x, p ∈ post /\ p ∉ pre /\ p <> e /\ st p = 1 /\ x ∈ edges (tb w) p /\ rt w x = rt w e }.
  Lemma lcd_dfs_spec w0 sub0 sup : shape w0 -> sub0 < n -> sup < n -> L sup sub0 -> forall fuel stack st subset w w1 s',
    lstate w0 sub0 sup stack st subset w -> lcd_dfs ord c fuel stack st subset w = Some (w1, s') ->
    (w1 = w0 /\ s' = sub0) \/ (mstep w0 w1 s' /\ rt w1 sup = s' /\ rt w1 sub0 = s').
  Proof using WG ord_perm L_refl L_trans J_edge J_rt J_merged.
    clear J_quiet. intros H0 Hsub Hsup LL. induction fuel as [|fuel IH]; intros [|node rest] st subset w w1 s' LS E; cbn [lcd_dfs] in E; try discriminate.
    1,2: injection E as <- <-; destruct (ls_w _ _ _ _ _ _ _ LS) as [|[M [K|(p & x & K & _)]]]; auto; [right; split; [auto|split; [auto|apply LS]]|apply elem_of_nil in K; tauto].
    pose proof LS as [Lw Ls Lj (Lsub1 & Lsub2 & Lsub3) Le Lr Lp].
    assert (Pop : forall st', (forall e, st' e = st e \/ (e = node /\ st' e = 2)) -> (st node = 1 -> forall x, x ∈ edges (tb w) node -> rt w x <> subset) ->
                  lstate w0 sub0 sup rest st' subset w).
    { intros st' Hst Hno. split; auto.
      - destruct Lw as [|[M [K|(p & x & K1 & K2 & K3 & K4)]]]; [left; auto|right; auto|]. right. split; auto. right. exists p, x.
        assert (p <> node) by (intros ->; apply (Hno K2 x K3 K4)).
        split; [apply elem_of_cons in K1 as [|]; [congruence|auto]|]. split; auto. destruct (Hst p) as [->|[]]; [auto|congruence].
      - intros e He. apply Le. right. auto.
      - intros e He K. apply Lr; [right; auto|]. destruct (Hst e) as [<-|[_ K1]]; auto.
      - intros pre e post ->. destruct (Lp (node :: pre) e post eq_refl) as [|(p & x & K1 & K2 & K3 & K4 & K5)]; auto. right. exists p, x.
        rewrite not_elem_of_cons in K2. destruct K2 as [K2 K6]. split; [auto|]. split; [auto|]. split; [auto|]. split; [|auto]. destruct (Hst p) as [->|[]]; [auto|congruence]. }
    destruct (decide (st node = 0)) as [S0|S0]; [|destruct (decide (st node = 1)) as [S1|S1]].
    - (* first visit *)
      destruct (lcd_push_spec w (upd st node 1) subset (items ord (edges (tb w) node) w) (node :: rest)) as (pu & Ep & Kp). rewrite Ep in E.
      refine (IH _ _ _ _ _ _ _ E). clear IH E.
      assert (Kp' : forall e, e ∈ pu -> exists x, x ∈ edges (tb w) node /\ x < n /\ e = rt w x /\ e <> subset /\ st e = 0 /\ e <> node).
      { intros e He. destruct (Kp e He) as (x & X1 & X2 & X3 & X4). exists x. apply items_in in X1; auto. split; auto. split; [apply (sh_edges _ _ _ w Ls _ _ X1)|].
        split; [auto|]. split; [auto|]. unfold upd in X4. destruct (decide (e = node)); [discriminate|auto]. }
      assert (Ust : forall p, st p = 1 -> upd st node 1 p = 1) by (intros p K; unfold upd; destruct (decide _); auto).
      assert (Lnode : node < n /\ L node sup) by (apply Le; left).
      split; auto.
      + destruct Lw as [|[M [K|(p & x & K1 & K2 & K3)]]]; [left; auto|right; auto|]. right. split; auto. right. exists p, x.
        split; [apply elem_of_app; auto|]. auto.
      + intros e. rewrite elem_of_app. intros [He|He]; auto. destruct (Kp' e He) as (x & X1 & X2 & -> & X3). split; [apply (rt_lt c n kd w x); auto|].
        apply L_trans with x; [apply J_rt; auto|]. apply L_trans with node; [eapply J_edge; eauto|apply Lnode].
      + intros e. rewrite elem_of_app. intros [He|He].
        * intros _. destruct (Kp' e He) as (x & X1 & X2 & -> & X3 & X4). split; [apply (rt_rt c n kd w x); auto|auto].
        * intros K. apply Lr; auto. unfold upd in K. destruct (decide (e = node)) as [->|]; [congruence|auto].
      + intros pre e post Es. apply app_eq_app in Es as (l & [[E1 E2]|[E1 E2]]).
        * (* e :: post inside pu ++ ..., with pu = pre ++ l *)
          destruct l as [|e' l]; cbn in E2.
          -- rewrite app_nil_r in E1. subst pre. destruct (Lp [] e post (eq_sym E2)) as [|(p & x & K1 & K2 & K3 & K4 & K5)]; auto.
             right. exists p, x. split; auto. split; [|auto]. intros K. destruct (Kp' p K) as (y & _ & _ & _ & _ & Y & _). congruence.
          -- injection E2 as -> ->. right.
             assert (He : e' ∈ pu) by (rewrite E1; apply elem_of_app; right; left). destruct (Kp' e' He) as (x & X1 & X2 & X3 & X4 & X5 & X6).
             exists node, x. split; [apply elem_of_app; right; left|]. split.
             { intros K. assert (K' : node ∈ pu) by (rewrite E1; apply elem_of_app; auto). destruct (Kp' node K') as (y & _ & _ & _ & _ & _ & Y). congruence. }
             split; [auto|]. split; [unfold upd; apply decide_True; auto|]. split; [auto|]. rewrite X3, rt_rt with (c := c) (n := n) (kd := kd); auto.
        * destruct (Lp l e post E2) as [|(p & x & K1 & K2 & K3 & K4 & K5)]; auto. right. exists p, x. subst pre. rewrite not_elem_of_app.
          split; auto. split; [|auto]. split; auto. intros K. destruct (Kp' p K) as (y & _ & _ & _ & _ & Y & _). congruence.
    - (* second visit *)
      destruct (existsb _ _) eqn:Ex.
      2: { refine (IH _ _ _ _ _ _ _ E). apply Pop.
           - intros e. unfold upd. destruct (decide (e = node)); auto.
           - intros _ x Hx Rx. apply Bool.not_true_iff_false in Ex. apply Ex. apply existsb_exists. exists x. split; [|apply bool_decide_eq_true; auto].
             apply elem_of_list_In. apply items_in; auto. }
      apply existsb_exists in Ex as (x0 & X1 & X2). apply elem_of_list_In, items_in in X1; auto. apply bool_decide_eq_true in X2.
      destruct (Le node) as [Nlt NL]; [left|]. destruct (Lr node) as [Rn Nn]; [left|lia|].
      pose proof (proj2 (proj2 (sh_edges _ _ _ w Ls _ _ X1))) as X3.
      assert (Lsn : L subset node). { apply L_trans with x0; [|eapply J_edge; eauto]. rewrite <- X2. apply J_rt; auto. }
      assert (Lss : L sub0 subset /\ L subset sub0) by (rewrite <- Lsub3; destruct (J_rt w sub0 Lj Ls Hsub); auto).
      assert (Lns : L node subset). { apply L_trans with sup; auto. apply L_trans with sub0; auto. apply Lss. }
      assert (M : let '(w', r) := wunify c node subset w in mstep w0 w' r /\ rt w' node = r /\ rt w' subset = r /\ (r = node \/ r = subset) /\ wle w w' /\
                  (forall p, p <> node -> p <> subset -> rt w p = p -> p < n -> edges (tb w') p = edges (tb w) p /\ rt w' p = p)).
      { pose proof (wunify_raw c n kd node subset w Ls Nlt Lsub1) as Kr.
        assert (Kr2 : let '(w', r) := wunify c node subset w in (forall p, p <> node -> p <> subset -> rt w p = p -> p < n -> edges (tb w') p = edges (tb w) p /\ rt w' p = p)).
        { destruct (wunify c node subset w) as [w' r]. destruct Kr as [(e & -> & _)|(_ & nr & C & Mg)]; [auto|]. rewrite Rn, Lsub2 in C. intros p P1 P2 P3 P4.
          rewrite (mg_edges _ _ _ _ _ Mg), (mg_rt c n kd _ _ _ _ p Ls Mg P4), P3. rewrite !decide_False; auto; destruct C as [[-> ->]|[-> ->]]; auto. }
        destruct Lw as [[-> ->]|[Mw _]].
        - pose proof (wunify_first node sub0 w0 Ls Lj Nlt Lsub1) as K. rewrite Rn, Lsub2 in K. specialize (K Nn Lns Lsn).
          destruct (wunify c node sub0 w0) as [w' r]. destruct K as (K1 & K2 & K3 & K4). split; [auto|]. split; [auto|]. split; [auto|]. split; [auto|].
          split; [apply (ms_wle _ _ _ K1)|auto].
        - pose proof (wunify_more node subset w0 w subset H0 Mw Nlt Lsub1) as K. rewrite Rn, Lsub2 in K. specialize (K Nn (or_intror eq_refl) Lns Lsn).
          destruct (wunify c node subset w) as [w' r]. destruct K as (K1 & K2 & K3 & K4 & K5). auto 8. }
      destruct (wunify c node subset w) as [w' r]. destruct M as (M & Mn & Ms & Mr & Mle & Med).
      refine (IH _ _ _ _ _ _ _ E). clear IH E.
      assert (Par : forall pre e post, node :: rest = pre ++ e :: post -> (post = [] /\ e = sup) \/
        exists p x, p ∈ post /\ p ∉ pre /\ p <> e /\ st p = 1 /\ (p <> node -> x ∈ edges (tb w') p) /\ rt w' x = rt w' e /\ (p <> node -> upd st node 2 p = 1)).
      { intros pre e post Es. destruct (Lp pre e post Es) as [|(p & x & K1 & K2 & K3 & K4 & K5 & K6)]; auto. right. exists p, x.
        assert (Ip : p ∈ node :: rest) by (rewrite Es, elem_of_app; right; right; auto).
        assert (Ie : e ∈ node :: rest) by (rewrite Es, elem_of_app; right; left; auto).
        split; [auto|]. split; [auto|]. split; [auto|]. split; [auto|]. split; [|split].
        - intros Np. destruct (Lr p Ip) as [P1 P2]; [lia|]. rewrite (proj1 (Med p Np P2 P1 (proj1 (Le p Ip)))). auto.
        - apply (le_same _ _ _ Mle); auto; [apply (sh_edges _ _ _ w Ls _ _ K5)|apply Le; auto].
        - intros Np. unfold upd. rewrite decide_False; auto. }
      split.
      + right. split; auto. destruct (Par [] node rest eq_refl) as [[_ <-]|(p & x & K1 & K2 & K3 & K4 & K5 & K6 & K7)]; [auto|]. right. exists p, x.
        split; [auto|]. split; [auto|]. split; [auto|congruence].
      + apply M.
      + apply M.
      + split; [apply (ms_lt _ _ _ M)|]. split; [apply (ms_r _ _ _ M)|]. rewrite <- Ms. rewrite <- Lsub2 in Lsub3. apply (le_same _ _ _ Mle); auto.
      + intros e He. apply Le. right. auto.
      + intros e He K. unfold upd in K. destruct (decide (e = node)) as [->|Ne]; [congruence|]. destruct (Lr e) as [R1 R2]; [right; auto|auto|].
        split; [apply Med; auto; apply Le; right; auto|]. destruct Mr; congruence.
      + intros pre e post Es. destruct (Par (node :: pre) e post) as [|(p & x & K1 & K2 & K3 & K4 & K5 & K6 & K7)]; [cbn; congruence|auto|].
        right. exists p, x. rewrite not_elem_of_cons in K2. destruct K2 as [K2 K2']. auto 10.
    - (* duplicate *)
      refine (IH _ _ _ _ _ _ _ E). apply Pop; auto.
  Qed.
  Lemma lcd_nothing_spec sub sup w w1 o : shape w -> J w -> sub < n -> sup < n -> rt w sub = sub -> rt w sup = sup -> sub <> sup -> L sup sub ->
    lcd_nothing ord c sub sup w = Some (w1, o) ->
    match o with None => quiet w w1 | Some r => mstep w w1 r /\ rt w1 sup = r /\ rt w1 sub = r end.
  Proof using WG ord_perm L_refl L_trans J_edge J_rt J_merged J_quiet.
    intros H Jw Hb Hp Rb Rp Ne LL. unfold lcd_nothing. destruct (decide _) as [e|ne]; [intros [= <- <-]; apply quiet_refl|].
    set (w' := setC _ w). assert (Q : quiet w w') by (apply quiet_setC; eauto). destruct (lcd_dfs _ _ _ _ _ _ w') as [[w2 s']|] eqn:Ed; cbn; [|discriminate].
    intros [= <- <-]. pose proof (quiet_shape w w' Q H) as H'.
    assert (LS : lstate w' sub sup [sup] (fun _ => 0) sub w').
    { split; auto.
      + eapply J_quiet; eauto.
      + intros e ->%elem_of_list_singleton. auto.
      + intros e ->%elem_of_list_singleton _. auto.
      + intros pre e post Es. destruct pre as [|? pre]; cbn in Es; [injection Es as <- <-; auto|]. injection Es as _ Es. destruct pre; discriminate. }
    destruct (lcd_dfs_spec w' sub sup H' Hb Hp LL _ _ _ _ _ _ _ LS Ed) as [[-> ->]|(M & M1 & M2)].
    - rewrite decide_False; [auto|]. change (rt w sup <> sub). congruence.
    - rewrite decide_True by auto. split; auto. apply (ms_quiet_l w w'); auto.
  Qed.

  (** *** online cycle detection *)
  Lemma ocd_push_spec w lo up visited : forall succs stack, exists pushed, ocd_push w lo up visited succs stack = pushed ++ stack /\
    forall e b, (e, b) ∈ pushed -> b = false /\ exists x, x ∈ succs /\ e = rt w x /\ e ∉ visited.
  Proof using.
    clear. induction succs as [|x succs IH]; intros stack; cbn [ocd_push fold_left].
    - exists []. split; auto. intros e b []%elem_of_nil.
    - set (stk := if decide (rt w x ∈ visited) then stack else match o2t (cy w) (rt w x) with
                 | Some t => if decide (lo <= t /\ t <= up) then (rt w x, false) :: stack else stack
                 | None => stack end).
      destruct (IH stk) as (pu & E & K). fold stk. change (fold_left _ succs stk) with (ocd_push w lo up visited succs stk). rewrite E.
      assert (K' : forall e b, (e, b) ∈ pu -> b = false /\ exists y, y ∈ x :: succs /\ e = rt w y /\ e ∉ visited).
      { intros e b He. destruct (K e b He) as (K1 & y & Y1 & Y2). split; auto. exists y. split; [right|]; auto. }
      unfold stk. destruct (decide (rt w x ∈ visited)); [exists pu; auto|]. destruct (o2t _ _) as [t|]; [|exists pu; auto]. destruct (decide _); [|exists pu; auto].
      exists (pu ++ [(rt w x, false)]). rewrite <- app_assoc. split; auto. intros z b. rewrite elem_of_app, elem_of_list_singleton.
      intros [He|[= -> ->]]; auto. split; auto. exists x. split; [left|]; auto.
  Qed.
  Record ostate (w : ws) (sub sup : nat) (stack : list (nat * bool)) (cycle : gset nat) : Prop := {
    os_elem : forall e b, (e, b) ∈ stack -> e < n /\ rt w e = e /\ L e sup;
    os_parent : forall pre e b post, stack = pre ++ (e, b) :: post -> (post = [] /\ e = sup) \/ exists p x, (p, true) ∈ post /\ x ∈ edges (tb w) p /\ rt w x = e;
    os_cyc : cycle = ∅ \/ (sub ∈ cycle /\ (sup ∈ cycle \/ exists p x, (p, true) ∈ stack /\ x ∈ edges (tb w) p /\ rt w x ∈ cycle));
    os_mem : forall x, x ∈ cycle -> x < n /\ rt w x = x /\ L x sup /\ L sub x }.
  Lemma ocd_dfs_spec w lo up sub sup : shape w -> J w -> forall fuel stack visited cycle v' c',
    ostate w sub sup stack cycle -> ocd_dfs ord fuel w lo up sub stack visited cycle = Some (v', c') -> ostate w sub sup [] c'.
  Proof using ord_perm L_refl L_trans J_edge J_rt.
    clear J_merged J_quiet WG. intros H Jw. induction fuel as [|fuel IH]; intros [|[node second] rest] visited cycle v' c' OS E; cbn [ocd_dfs] in E; try discriminate.
    1,2: injection E as <- <-; auto.
    pose proof OS as [Oe Op Oc Om]. destruct (Oe node second) as (N1 & N2 & N3); [left|]. destruct second.
    - refine (IH _ _ _ _ _ _ E). clear IH E.
      assert (Oe' : forall e b, (e, b) ∈ rest -> e < n /\ rt w e = e /\ L e sup) by (intros e b He; apply (Oe e b); right; auto).
      assert (Op' : forall pre e b post, rest = pre ++ (e, b) :: post -> (post = [] /\ e = sup) \/ exists p x, (p, true) ∈ post /\ x ∈ edges (tb w) p /\ rt w x = e).
      { intros pre e b post ->. apply (Op ((node, true) :: pre) e b post). auto. }
      assert (Add : (node = sub \/ (cycle <> ∅ /\ L sub node)) -> ostate w sub sup rest ({[node]} ∪ cycle)).
      { intros HA. split; auto.
        - right. split.
          + destruct HA as [->|[HA _]]; [apply elem_of_union; left; apply elem_of_singleton; auto|]. apply elem_of_union. right. destruct Oc; tauto.
          + destruct (Op [] node true rest eq_refl) as [[_ <-]|(p & x & P1 & P2 & P3)]; [left; apply elem_of_union; left; apply elem_of_singleton; auto|].
            right. exists p, x. split; auto. split; auto. rewrite P3. apply elem_of_union. left. apply elem_of_singleton; auto.
        - intros x. rewrite elem_of_union, elem_of_singleton. intros [->|Hx]; auto. split; [auto|]. split; [auto|]. split; [auto|]. destruct HA as [->|[]]; auto. }
      destruct (decide (node = sub)); [auto|]. destruct (existsb _ _) eqn:Ex.
      + apply existsb_exists in Ex as (x0 & X1 & X2). apply elem_of_list_In, items_in in X1; auto. apply bool_decide_eq_true in X2.
        apply Add. right. split; [intros ->; apply elem_of_empty in X2; auto|].
        apply L_trans with (rt w x0); [apply (Om _ X2)|]. apply L_trans with x0; [apply J_rt; auto; apply (sh_edges _ _ _ w H _ _ X1)|eapply J_edge; eauto].
      + split; auto. destruct Oc as [|[O1 [O2|(p & x & P1 & P2 & P3)]]]; auto. right. split; auto. right. exists p, x. split; auto.
        apply elem_of_cons in P1 as [P1|]; auto. injection P1 as ->. exfalso. apply Bool.not_true_iff_false in Ex. apply Ex. apply existsb_exists.
        exists x. split; [apply elem_of_list_In, items_in; auto|apply bool_decide_eq_true; auto].
    - destruct (decide (node ∈ visited)).
      + refine (IH _ _ _ _ _ _ E). split; auto.
        * intros e0 b He. apply (Oe e0 b); right; auto.
        * intros pre e' b post ->. apply (Op ((node, false) :: pre) e' b post). auto.
        * destruct Oc as [|[O1 [O2|(p & x & P1 & P2 & P3)]]]; auto. right. split; auto. right. exists p, x. split; auto.
          apply elem_of_cons in P1 as [P1|]; auto. discriminate.
      + destruct (ocd_push_spec w lo up ({[node]} ∪ visited) (items ord (edges (tb w) node) w) ((node, true) :: rest)) as (pu & Ep & Kp). rewrite Ep in E.
        refine (IH _ _ _ _ _ _ E). clear IH E.
        assert (Kp' : forall e b, (e, b) ∈ pu -> b = false /\ exists x, x ∈ edges (tb w) node /\ x < n /\ e = rt w x).
        { intros e b He. destruct (Kp e b He) as (K1 & x & X1 & X2 & X3). split; auto. apply items_in in X1; auto. exists x. split; auto. split; auto. apply (sh_edges _ _ _ w H _ _ X1). }
        split; auto.
        * intros e b. rewrite elem_of_app, elem_of_cons. intros [He|[He|He]].
          -- destruct (Kp' e b He) as (_ & x & X1 & X2 & ->). split; [apply (rt_lt c n kd); auto|]. split; [apply (rt_rt c n kd); auto|].
             apply L_trans with x; [apply J_rt; auto|]. apply L_trans with node; [eapply J_edge; eauto|auto].
          -- injection He as -> ->. auto.
          -- apply (Oe e b). right. auto.
        * intros pre e b post Es. apply app_eq_app in Es as (l & [[E1 E2]|[E1 E2]]).
          -- destruct l as [|e' l]; cbn in E2.
             ++ inversion E2; subst. exact (Op [] _ _ _ eq_refl).
             ++ injection E2 as <- ->. right. assert (He : (e, b) ∈ pu) by (rewrite E1; apply elem_of_app; right; left).
                destruct (Kp' e b He) as (_ & x & X1 & X2 & X3). exists node, x. split; [apply elem_of_app; right; left|]. auto.
          -- destruct l as [|e' l]; cbn in E2; [inversion E2; subst; exact (Op [] _ _ _ eq_refl)|].
             injection E2 as <- E2. apply (Op ((node, false) :: l) e b post). cbn. congruence.
        * destruct Oc as [|[O1 [O2|(p & x & P1 & P2 & P3)]]]; auto. right. split; auto. right. exists p, x. split; auto.
          apply elem_of_cons in P1 as [P1|P1]; [discriminate|]. apply elem_of_app. right. right. auto.
  Qed.
  Lemma ocd_merge_spec w0 (Cy : nat -> Prop) : shape w0 -> (forall x y, Cy x -> Cy y -> x < n /\ L x y) -> forall l r (done : nat -> Prop) w,
    (forall x, x ∈ l -> Cy x) -> (exists z, done z) -> (forall x, done x -> Cy x /\ rt w x = r) -> shape w -> J w -> r < n -> rt w r = r ->
    (quiet w0 w \/ mstep w0 w r) ->
    exists w' r', ocd_merge c l (Some r) w = (w', Some r') /\ (forall x, done x \/ x ∈ l -> rt w' x = r') /\ (quiet w0 w' \/ mstep w0 w' r').
  Proof using WG L_refl L_trans J_rt J_merged J_quiet.
    clear J_edge ord_perm. intros H0 HC. induction l as [|node l IH]; intros r done w Hl [z Hz] Hd H Jw Lr Rr Q; cbn [ocd_merge].
    - exists w, r. split; auto. split; auto. intros x [Hx|[]%elem_of_nil]. apply Hd; auto.
    - set (w1 := setC _ w). assert (Q1 : quiet w w1) by (apply quiet_setC; eauto).
      assert (H1 : shape w1) by (eapply quiet_shape; eauto). assert (J1 : J w1) by (eapply J_quiet; eauto).
      assert (Qm : quiet w0 w1 \/ mstep w0 w1 r) by (destruct Q; [left; eapply quiet_trans; eauto|right; eapply ms_quiet_r; eauto]).
      assert (Cn : Cy node) by (apply Hl; left). destruct (HC node node Cn Cn) as [Nlt _].
      destruct (Hd z Hz) as [Cz Rz]. destruct (HC z z Cz Cz) as [Zlt _].
      pose proof (wunify_raw c n kd r node w1 H1 Lr Nlt) as K.
      change (rt w1 r) with (rt w r) in K. change (rt w1 node) with (rt w node) in K. rewrite Rr in K.
      assert (LL : L r (rt w node) /\ L (rt w node) r).
      { destruct (J_rt w z Jw H Zlt) as [Z1 Z2]. rewrite Rz in Z1, Z2. destruct (J_rt w node Jw H Nlt) as [Y1 Y2].
        destruct (HC z node Cz Cn) as [_ A]. destruct (HC node z Cn Cz) as [_ B]. split.
        - apply L_trans with z; auto. apply L_trans with node; auto.
        - apply L_trans with node; auto. apply L_trans with z; auto. }
      assert (M : let '(w', r') := wunify c r node w1 in rt w' node = r' /\ (forall x, x < n -> rt w x = r -> rt w' x = r') /\ shape w' /\ J w' /\ r' < n /\ rt w' r' = r' /\ (quiet w0 w' \/ mstep w0 w' r')).
      { destruct (decide (r = rt w node)) as [e|ne].
        - destruct (wunify c r node w1) as [w' r']. destruct K as [(_ & -> & ->)|(ne & _)]; [|congruence].
          change (rt w1) with (rt w). split; [auto|]. split; [auto|]. auto 8.
        - pose proof (fun x => mg_wle c n kd w1 x) as _.
          assert (K' : let '(w', r') := wunify c r node w1 in mstep w0 w' r' /\ rt w' r = r' /\ rt w' node = r' /\ wle w1 w').
          { destruct Qm as [Qm|Qm].
            - pose proof (wunify_first r node w1 H1 J1 Lr Nlt) as F. change (rt w1 r) with (rt w r) in F. change (rt w1 node) with (rt w node) in F. rewrite Rr in F.
              specialize (F ne (proj1 LL) (proj2 LL)). destruct (wunify c r node w1) as [w' r']. destruct F as (F1 & F2 & F3 & F4).
              split; [apply (ms_quiet_l w0 w1); auto|]. split; [auto|]. split; [auto|apply F1].
            - pose proof (wunify_more r node w0 w1 r H0 Qm Lr Nlt) as F. change (rt w1 r) with (rt w r) in F. change (rt w1 node) with (rt w node) in F. rewrite Rr in F.
              specialize (F ne (or_introl eq_refl) (proj1 LL) (proj2 LL)). destruct (wunify c r node w1) as [w' r']. destruct F as (F1 & F2 & F3 & F4 & F5). auto. }
          destruct (wunify c r node w1) as [w' r']. destruct K' as (F1 & F2 & F3 & F5). split; [auto|]. split.
          { intros x Hx Rx. rewrite <- F2. apply (le_same _ _ _ F5); auto. change (rt w x = rt w r). congruence. }
          pose proof F1 as []. repeat (split; [assumption|]). right. exact F1. }
      destruct (wunify c r node w1) as [w' r']. destruct M as (M1 & M2 & M3 & M4 & M5 & M6 & M7).
      destruct (IH r' (fun x => done x \/ x = node) w') as (w2 & r2 & E2 & F2 & G2); auto.
      + intros x Hx. apply Hl. right. auto.
      + exists z. auto.
      + intros x [Hx| ->]; [|auto]. destruct (Hd x Hx) as [Cx Rx]. split; auto. apply M2; auto. apply (HC x x); auto.
      + exists w2, r2. split; auto. split; auto. intros x Hx. apply F2. rewrite elem_of_cons in Hx. tauto.
  Qed.
  Lemma quiet_place lo up v cyc m w : quiet w (ocd_place lo up v cyc m w).
  Proof using. apply quiet_setC. eauto. Qed.
  Lemma ocd_maintain_spec sub sup w w1 o : shape w -> J w -> sub < n -> sup < n -> rt w sub = sub -> rt w sup = sup -> sub <> sup -> L sup sub ->
    ocd_maintain ord c sub sup w = Some (w1, o) ->
    match o with None => quiet w w1 | Some r => mstep w w1 r /\ rt w1 sup = r /\ rt w1 sub = r end.
  Proof using WG ord_perm L_refl L_trans J_edge J_rt J_merged J_quiet.
    intros H Jw Hb Hp Rb Rp Ne LL. unfold ocd_maintain. destruct (o2t (cy w) sub) as [up|]; cbn [mbind option_bind]; [|discriminate]. destruct (o2t (cy w) sup) as [lo|]; cbn [mbind option_bind]; [|discriminate].
    destruct (decide _); [intros [= <- <-]; apply quiet_refl|].
    match goal with |- context [ocd_dfs ?a ?b ?d ?e ?f ?g ?h ?i ?j] => destruct (ocd_dfs a b d e f g h i j) as [[v cyc]|] eqn:Ed end; cbn [mbind option_bind]; [|discriminate].
    apply ocd_dfs_spec with (sup := sup) in Ed; auto.
    2: { split; auto.
         - intros e b [= -> ->]%elem_of_list_singleton. auto.
         - intros pre e b post Es. destruct pre as [|? pre]; cbn in Es; [injection Es as <- <- <-; auto|]. injection Es as _ Es. destruct pre; discriminate.
         - intros x []%elem_of_empty. }
    destruct Ed as [_ _ Oc Om].
    assert (Os : cyc = ∅ \/ (sub ∈ cyc /\ sup ∈ cyc)).
    { destruct Oc as [|[O1 [O2|(p & x & P1 & _)]]]; auto. apply elem_of_nil in P1. tauto. }
    pose proof (quiet_tickw w) as Qt. set (wt := tickw w) in *.
    assert (Ht : shape wt) by (eapply quiet_shape; eauto). assert (Jt : J wt) by (eapply J_quiet; eauto).
    destruct Os as [->|[O1 O2]].
    - assert (Ei : items ord ∅ w = []).
      { unfold items. apply Permutation_nil. rewrite (ord_perm _ _ _), elements_empty. reflexivity. }
      rewrite Ei. cbn [ocd_merge]. intros [= <- <-]. eapply quiet_trans; [exact Qt|apply quiet_place].
    - destruct (items ord cyc w) as [|y l] eqn:Ei.
      { exfalso. assert (K : sub ∈ items ord cyc w) by (apply items_in; auto). rewrite Ei in K. apply elem_of_nil in K. auto. }
      assert (Il : forall x, x ∈ cyc <-> x = y \/ x ∈ l) by (intros x; rewrite <- (items_in ord ord_perm cyc w), Ei; apply elem_of_cons).
      cbn [ocd_merge]. set (w' := setC _ wt). assert (Q' : quiet wt w') by (apply quiet_setC; eauto).
      assert (Cl : forall x z, x ∈ cyc -> z ∈ cyc -> x < n /\ L x z).
      { intros x z Hx Hz. destruct (Om x Hx) as (A1 & A2 & A3 & A4), (Om z Hz) as (B1 & B2 & B3 & B4). split; auto. eauto using L_trans. }
      assert (Hy : y ∈ cyc) by (apply Il; auto). destruct (Om y Hy) as (Y1 & Y2 & _).
      destruct (ocd_merge_spec wt (fun x => x ∈ cyc) Ht Cl l y (fun x => x = y) w') as (w2 & r & E2 & F & Q2); auto.
      + intros x Hx. apply Il. auto.
      + eauto.
      + intros x ->. split; auto.
      + eapply quiet_shape; eauto.
      + eapply J_quiet; eauto.
      + rewrite E2. intros [= <- <-]. pose proof (quiet_place lo up v cyc (Some r) w2) as Qp.
        assert (F1 : rt w2 sub = r) by (apply F, Il; auto). assert (F2 : rt w2 sup = r) by (apply F, Il; auto).
        assert (M : mstep wt w2 r).
        { destruct Q2 as [Q2|]; auto. exfalso. rewrite (quiet_rt _ _ sub Q2) in F1. rewrite (quiet_rt _ _ sup Q2) in F2. apply Ne. change (rt wt) with (rt w) in *. congruence. }
        split; [apply (ms_quiet_l w wt); auto; eapply ms_quiet_r; eauto|]. rewrite !(quiet_rt _ _ _ Qp). auto.
  Qed.
End WMerge.
