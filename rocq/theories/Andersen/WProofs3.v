(** The worklist solver: the invariant, and what simple steps, unification and the end of a visit do to it. *)
From stdpp Require Import base list list_numbers fin_sets gmap.
From Coq Require Import Lia.
From Verif.Andersen Require Import Model Spec Proofs Proofs2 Proofs3 Proofs4 Proofs5 WModel WProofs WProofs2.

Section WInv.
  Context (G : prog) (c : cfg) (n : nat) (kd : nat -> kind) (WG : wf_prog n kd G).
  Notation shape := (shape c n kd). Notation sstep := (sstep G c). Notation step := (step G c n kd). Notation ok := (ok G c n kd).
  Notation vld := (vld n kd). Notation rt := WModel.rt. Notation Xc := (Xc G). Notation Ic := (Ic G).

  (** *** everything known about classes of pointer objects is kept *)
  Record wle (w w' : ws) : Prop := {
    le_Lk0 : forall a b, a < n -> b < n -> Lk0 w a b -> Lk0 w' a b;
    le_same : forall x y, x < n -> y < n -> rt w x = rt w y -> rt w' x = rt w' y;
    le_root : forall x, x < n -> rt w' x = x -> rt w x = x;
    le_E : forall x, x < n -> E w x -> E w' x;
    le_Pp : forall x, x < n -> Pp w x -> Pp w' x;
    le_Es : forall x, Es w x -> Es w' x;
    le_So : forall x y, x < n -> So w x y -> So w' x y;
    le_Sas : forall x, x < n -> Sas w x -> Sas w' x;
    le_Las : forall x, x < n -> Las w x -> Las w' x;
    le_Lk : forall a b, a < n -> b < n -> Lk w a b -> Lk w' a b;
    le_stc : forall p v, p < n -> v ∈ stc (tb w) (rt w p) -> v ∈ stc (tb w') (rt w' p);
    le_ldc : forall p v, p < n -> v ∈ ldc (tb w) (rt w p) -> v ∈ ldc (tb w') (rt w' p);
    le_clc : forall p v, p < n -> v ∈ clc (tb w) (rt w p) -> v ∈ clc (tb w') (rt w' p) }.
  Lemma wle_refl w : wle w w.
  Proof using. split; auto. Qed.
  Lemma wle_trans w1 w2 w3 : wle w1 w2 -> wle w2 w3 -> wle w1 w3.
  Proof using. intros A B. split; intros; [eapply le_Lk0|eapply le_same|eapply le_root|eapply le_E|eapply le_Pp|eapply le_Es|eapply le_So|eapply le_Sas|eapply le_Las|eapply le_Lk|eapply le_stc|eapply le_ldc|eapply le_clc]; eauto;
    [eapply le_Lk0|eapply le_same|eapply le_root|eapply le_E|eapply le_Pp|eapply le_Es|eapply le_So|eapply le_Sas|eapply le_Las|eapply le_Lk|eapply le_stc|eapply le_ldc|eapply le_clc]; eauto. Qed.
  Lemma wle_stable w w' : le (P w) (P w') -> newE w ⊆ newE w' -> tb w' = tb w -> wle w w'.
  Proof using.
    intros L N T. pose proof (fun i => rt_le w w' i L) as R. pose proof (le_static _ _ L) as S. split; intros *; rewrite ?R, ?T; auto.
    - intros _ _. apply stable_Lk0; auto.
    - intros _. apply E_le; auto.
    - intros _. apply Pp_le; auto.
    - apply Es_le; auto.
    - intros _. apply So_le; auto.
    - intros _. unfold Sas. rewrite R, (st_sas _ _ S). auto.
    - intros _. unfold Las. rewrite R, (st_las _ _ S). auto.
    - intros _ _. apply stable_Lk; auto.
  Qed.
  Lemma ss_wle I w w' : sstep I w w' -> wle w w'.
  Proof using. intros S. apply wle_stable; apply S. Qed.

  (** *** the invariant *)
  Definition clean (X : nat -> Prop) (w : ws) (r : nat) : Prop := r ∉ wl w /\ ~ X r.
  (** the pointees, and flags, that the constraints of root [r] have been informed of *)
  Definition SP (X : nat -> Prop) (w : ws) (r y : nat) : Prop :=
    y ∈ pts (P w) r /\ if dp c then r ∈ tracked (df w) /\ y ∉ newp (df w) r else clean X w r.
  Definition SX (X : nat -> Prop) (w : ws) (r : nat) : Prop := if dp c then r ∈ extseen (df w) else clean X w r /\ r ∈ fext (P w).
  Definition SE (X : nat -> Prop) (w : ws) (r : nat) : Prop := if dp c then r ∈ peseen (df w) else clean X w r /\ r ∈ fpe (P w).

  Definition exempt (exc : option (nat * nat)) (w : ws) (r q : nat) : Prop :=
    match exc with Some (a, b) => rt w r = rt w a /\ rt w q = rt w b | None => False end.
  Definition exc_in (exc : option (nat * nat)) : Prop := match exc with Some (a, b) => a < n /\ b < n | None => True end.
  (** the constraints of root [r] hold for the pointees in [S], and for external if [sx] *)
  Record ob (exc : option (nat * nat)) (w : ws) (r : nat) (S : nat -> Prop) (sx : Prop) : Prop := {
    ob_edge : forall q, q ∈ edges (tb w) r -> exempt exc w r q \/ ((forall y, S y -> So w q y) /\ (sx -> E w q));
    ob_stc : forall v, v ∈ stc (tb w) r -> (forall y, S y -> Lk w y v) /\ (sx -> Pp w v);
    ob_ldc : forall v, v ∈ ldc (tb w) r -> (forall y, S y -> Lk w v y) /\ (sx -> E w v);
    ob_clc : forall k, k ∈ clc (tb w) r -> (forall y, S y -> kd y = ImportMO -> Xc w k) /\ (forall y, S y -> kd y = FunctionMO -> Ic w k y) /\ (sx -> Xc w k);
    ob_sas : forall y, Sas w r -> S y -> E w y \/ Pp w r;
    ob_las : forall y, Las w r -> S y -> Pp w y \/ Pp w r }.
  Record inv_at (X : nat -> Prop) exc (w : ws) (r : nat) : Prop := {
    in_ob : ob exc w r (SP X w r) (SX X w r);
    in_xs : SX X w r -> r ∈ fext (P w);
    in_es : SE X w r -> r ∈ fpe (P w);
    in_pe : SE X w r -> forall y, SP X w r y -> Es w y;
    in_pts : clean X w r -> forall y, y ∈ pts (P w) r -> SP X w r y;
    in_ext : clean X w r -> r ∈ fext (P w) -> SX X w r;
    in_fpe : clean X w r -> r ∈ fpe (P w) -> SE X w r }.
  Definition Inv (X : nat -> Prop) exc (w : ws) : Prop := forall r, r < n -> rt w r = r -> inv_at X exc w r.
  (** escaped functions have informed their arguments and results *)
  Definition FI (w : ws) : Prop := forall f, f ∈ functions G -> Es w f ->
    (forall i, Some i ∈ fargs G f -> E w i) /\ (forall i, Some i ∈ fresults G f -> Pp w i).

  Lemma Xc_wle w w' k : wle w w' -> Xc w k -> Xc w' k.
  Proof using WG. intros L [A B]. split; intros i Hi; [apply (le_Pp _ _ L)|apply (le_E _ _ L)]; auto; [eapply wg_cargs|eapply wg_couts]; eauto. Qed.
  Lemma Ic_wle w w' k f : wle w w' -> Ic w k f -> Ic w' k f.
  Proof using WG.
    intros L [A B]. split; intros i j Hi; apply (le_Lk _ _ L); auto; apply zip_in_l in Hi as [H1 H2];
      solve [eapply wg_cargs; eauto|eapply wg_couts; eauto|eapply wg_fargs; eauto|eapply wg_fresults; eauto].
  Qed.
  Lemma FI_wle w w' : wle w w' -> (forall f, Es w' f -> ~ Es w f -> f ∈ functions G ->
      (forall i, Some i ∈ fargs G f -> E w' i) /\ (forall i, Some i ∈ fresults G f -> Pp w' i)) -> FI w -> FI w'.
  Proof using WG.
    intros L N F f Hf He. destruct (decide (f ∈ fesc (P w))) as [H|H]; [|auto]. destruct (F f Hf H) as [A B].
    split; intros i Hi; [apply (le_E _ _ L)|apply (le_Pp _ _ L)]; auto; [eapply wg_fargs|eapply wg_fresults]; eauto.
  Qed.
  Lemma FI_ss I w w' : sstep I w w' -> FI w -> FI w'.
  Proof using WG. intros S. apply FI_wle; [eapply ss_wle; eauto|]. intros f H1 H2 H3. apply (ss_fn _ _ _ _ _ S); auto. Qed.
  Lemma exempt_wle exc w w' r q : wle w w' -> exc_in exc -> r < n -> q < n -> exempt exc w r q -> exempt exc w' r q.
  Proof using. intros L. destruct exc as [[a b]|]; cbn; [|tauto]. intros [Ha Hb] Hr Hq [A B]. split; apply (le_same _ _ L); auto. Qed.

  Lemma ob_mono exc w w' r (S S' : nat -> Prop) (sx sx' : Prop) : shape w -> exc_in exc -> wle w w' -> r < n ->
    edges (tb w') r ⊆ edges (tb w) r -> stc (tb w') r ⊆ stc (tb w) r -> ldc (tb w') r ⊆ ldc (tb w) r -> clc (tb w') r ⊆ clc (tb w) r ->
    (Sas w' r -> Sas w r) -> (Las w' r -> Las w r) -> (forall y, S' y -> S y /\ y < n) -> (sx' -> sx) ->
    ob exc w r S sx -> ob exc w' r S' sx'.
  Proof using WG.
    intros H HX L Hr T1 T2 T3 T4 A1 A2 HS Hsx O. split.
    - intros q Hq. apply T1 in Hq. assert (q < n) by (eapply sh_edges; eauto). destruct (ob_edge _ _ _ _ _ O q Hq) as [X|[X Y]].
      + left. eapply exempt_wle; eauto.
      + right. split; [intros y Hy; apply (le_So _ _ L); auto; apply X, HS; auto|intros; apply (le_E _ _ L); auto].
    - intros q Hq. apply T2 in Hq. assert (q < n) by (eapply sh_stc; eauto). destruct (ob_stc _ _ _ _ _ O q Hq) as [X Y].
      split; [intros y Hy; destruct (HS y Hy); apply (le_Lk _ _ L); auto|intros; apply (le_Pp _ _ L); auto].
    - intros q Hq. apply T3 in Hq. assert (q < n) by (eapply sh_ldc; eauto). destruct (ob_ldc _ _ _ _ _ O q Hq) as [X Y].
      split; [intros y Hy; destruct (HS y Hy); apply (le_Lk _ _ L); auto|intros; apply (le_E _ _ L); auto].
    - intros q Hq. apply T4 in Hq. destruct (ob_clc _ _ _ _ _ O q Hq) as (X & Y & Z). split; [|split].
      + intros y Hy K. apply (Xc_wle _ _ _ L). apply (X y); auto. apply HS; auto.
      + intros y Hy K. apply (Ic_wle _ _ _ _ L). apply (Y y); auto. apply HS; auto.
      + intros K. apply (Xc_wle _ _ _ L). auto.
    - intros y K Hy. destruct (HS y Hy). destruct (ob_sas _ _ _ _ _ O y); auto; [left; apply (le_E _ _ L)|right; apply (le_Pp _ _ L)]; auto.
    - intros y K Hy. destruct (HS y Hy). destruct (ob_las _ _ _ _ _ O y); auto; [left; apply (le_Pp _ _ L)|right; apply (le_Pp _ _ L)]; auto.
  Qed.
  Lemma SP_lt (X : nat -> Prop) w r y : shape w -> SP X w r y -> y < n.
  Proof using. intros H [A _]. eapply pts_vld; eauto. Qed.

  (** *** transferring the invariant *)
  Lemma inv_at_mono (X X' : nat -> Prop) exc w w' r : shape w -> exc_in exc -> wle w w' -> r < n ->
    edges (tb w') r ⊆ edges (tb w) r -> stc (tb w') r ⊆ stc (tb w) r -> ldc (tb w') r ⊆ ldc (tb w) r -> clc (tb w') r ⊆ clc (tb w) r ->
    (Sas w' r -> Sas w r) -> (Las w' r -> Las w r) ->
    (forall y, SP X' w' r y -> SP X w r y) -> (SX X' w' r -> SX X w r) -> (SE X' w' r -> SE X w r) ->
    (SX X' w' r -> r ∈ fext (P w')) -> (SE X' w' r -> r ∈ fpe (P w')) ->
    (clean X' w' r -> forall y, y ∈ pts (P w') r -> SP X' w' r y) ->
    (clean X' w' r -> r ∈ fext (P w') -> SX X' w' r) -> (clean X' w' r -> r ∈ fpe (P w') -> SE X' w' r) ->
    inv_at X exc w r -> inv_at X' exc w' r.
  Proof using WG.
    intros H HX L Hr T1 T2 T3 T4 A1 A2 HP HS HE X1 X2 C1 C2 C3 [O XS ES A B C D]. split; auto.
    - apply (ob_mono exc w w' r (SP X w r) _ (SX X w r)); auto. intros y Hy. split; auto. eapply SP_lt; eauto.
    - intros K y Hy. apply (le_Es _ _ L). apply A; auto.
  Qed.
  (** nothing that concerns [r] changed, [r] is at most dirtier *)
  Record same_data (w w' : ws) (r : nat) : Prop := {
    sd_edges : edges (tb w') r ⊆ edges (tb w) r; sd_stc : stc (tb w') r = stc (tb w) r; sd_ldc : ldc (tb w') r = ldc (tb w) r; sd_clc : clc (tb w') r = clc (tb w) r;
    sd_pts : pts (P w') r = pts (P w) r; sd_newp : newp (df w') r = newp (df w) r;
    sd_tracked : r ∈ tracked (df w') <-> r ∈ tracked (df w); sd_extseen : r ∈ extseen (df w') <-> r ∈ extseen (df w); sd_peseen : r ∈ peseen (df w') <-> r ∈ peseen (df w);
    sd_ext : r ∈ fext (P w') <-> r ∈ fext (P w); sd_pe : r ∈ fpe (P w') <-> r ∈ fpe (P w);
    sd_sas : r ∈ fsas (P w') <-> r ∈ fsas (P w); sd_las : r ∈ flas (P w') <-> r ∈ flas (P w) }.
  Lemma sd_refl w r : same_data w w r.
  Proof using. split; auto. Qed.
  Lemma sd_trans w1 w2 w3 r : same_data w1 w2 r -> same_data w2 w3 r -> same_data w1 w3 r.
  Proof using. intros [] []. split; try congruence; try (etrans; eassumption); tauto. Qed.
  Lemma inv_at_same (X X' : nat -> Prop) exc w w' r : shape w -> exc_in exc -> wle w w' -> r < n -> rt w r = r -> rt w' r = r -> same_data w w' r ->
    (clean X' w' r -> clean X w r) -> inv_at X exc w r -> inv_at X' exc w' r.
  Proof using WG.
    intros H HX L Hr R R' D Cl I. pose proof I as [O XS ES A B C F]. destruct D as [D1 D2 D3 D4 D5 D6 D7 D8 D9 D10 D11 D12 D13].
    apply (inv_at_mono X X' exc w w'); auto; try (rewrite ?D2, ?D3, ?D4; auto; fail); unfold Sas, Las, SP, SX, SE in *; rewrite ?R, ?R', ?D5, ?D6; try tauto.
    - intros y [H1 H2]. split; auto. destruct (dp c); tauto.
    - destruct (dp c); tauto.
    - destruct (dp c); tauto.
    - destruct (dp c); tauto.
    - destruct (dp c); tauto.
    - intros K y Hy. specialize (B (Cl K) y Hy). split; auto. destruct (dp c); tauto.
    - intros K Hx. destruct (dp c); tauto.
    - intros K Hx. destruct (dp c); tauto.
  Qed.
  (** dirtying more nodes *)
  Lemma Inv_weaken (X X' : nat -> Prop) exc w : shape w -> exc_in exc -> (forall r, r < n -> rt w r = r -> X r -> X' r \/ r ∈ wl w) -> Inv X exc w -> Inv X' exc w.
  Proof using WG.
    intros H HE HX I r Hr R. apply (inv_at_same X X' exc w w); auto using wle_refl, sd_refl.
    intros [K1 K2]. split; auto. intros K. destruct (HX r Hr R K); auto.
  Qed.
  (** changes that concern only the worklist, the new edges and the cycle detection *)
  Lemma Inv_aux (X X' : nat -> Prop) exc w w' : shape w -> exc_in exc -> wle w w' -> (forall r, r < n -> rt w' r = r -> same_data w w' r) ->
    (forall r, r < n -> rt w' r = r -> r ∉ wl w' -> ~ X' r -> r ∉ wl w /\ ~ X r) -> Inv X exc w -> Inv X' exc w'.
  Proof using WG.
    intros H HE L D HX I r Hr R. apply (inv_at_same X X' exc w w'); auto.
    - apply (le_root _ _ L); auto.
    - intros [K1 K2]. apply HX; auto.
    - apply I; auto. apply (le_root _ _ L); auto.
  Qed.
  Lemma Inv_sstep I (X : nat -> Prop) exc w w' : shape w -> exc_in exc -> sstep I w w' -> Inv X exc w -> Inv X exc w'.
  Proof using WG.
    intros H HE S In r Hr R'. pose proof (ss_le _ _ _ _ _ S) as L. assert (R : rt w r = r) by (rewrite <- (rt_le w w' r L); auto).
    pose proof (In r Hr R) as It. pose proof It as [O XS ES A B C F]. pose proof (le_static _ _ L) as St.
    assert (Cl : clean X w' r -> clean X w r /\ ~ changed w w' r).
    { intros [K1 K2]. split; [split; auto|]; intros K; apply K1; [apply (ss_wl _ _ _ _ _ S)|apply (ss_dirty _ _ _ _ _ S)]; auto. }
    assert (Ep : clean X w' r -> pts (P w') r = pts (P w) r).
    { intros K. destruct (decide (pts (P w') r = pts (P w) r)); auto. destruct (Cl K) as [_ []]. left. auto. }
    assert (Ee : clean X w' r -> r ∈ fext (P w') -> r ∈ fext (P w)).
    { intros K K1. destruct (decide (r ∈ fext (P w))); auto. destruct (Cl K) as [_ []]. right. right. auto. }
    assert (Epe : clean X w' r -> r ∈ fpe (P w') -> r ∈ fpe (P w)).
    { intros K K1. destruct (decide (r ∈ fpe (P w))); auto. destruct (Cl K) as [_ []]. right. left. auto. }
    apply (inv_at_mono X X exc w w'); auto; try (rewrite (ss_tb _ _ _ _ _ S); auto).
    - eapply ss_wle; eauto.
    - unfold Sas. rewrite (rt_le w w' r L), (st_sas _ _ St). auto.
    - unfold Las. rewrite (rt_le w w' r L), (st_las _ _ St). auto.
    - intros y. unfold SP. destruct (dp c) eqn:Dp.
      + rewrite (ss_tracked _ _ _ _ _ S). intros (K1 & K2 & K3). assert (y ∈ pts (P w) r).
        { destruct (decide (y ∈ pts (P w) r)); auto. destruct K3. apply (ss_new1 _ _ _ _ _ S); auto. }
        split; auto. split; auto. intros K. apply K3, (ss_new2 _ _ _ _ _ S). auto.
      + intros [K1 K2]. rewrite <- (Ep K2). split; auto. apply Cl; auto.
    - unfold SX. rewrite (ss_extseen _ _ _ _ _ S). destruct (dp c) eqn:Dp; auto. intros [K1 K2]. split; [apply Cl|]; auto.
    - unfold SE. rewrite (ss_peseen _ _ _ _ _ S). destruct (dp c) eqn:Dp; auto. intros [K1 K2]. split; [apply Cl|]; auto.
    - unfold SX in *. rewrite (ss_extseen _ _ _ _ _ S). destruct (dp c) eqn:Dp; [|tauto]. intros K. apply (le_ext _ _ L). auto.
    - unfold SE in *. rewrite (ss_peseen _ _ _ _ _ S). destruct (dp c) eqn:Dp; [|tauto]. intros K. apply (le_pe _ _ L). auto.
    - intros K y Hy. split; auto. rewrite (Ep K) in Hy. specialize (B (proj1 (Cl K)) y Hy). unfold SP in B. destruct (dp c) eqn:Dp; auto.
      destruct B as (B1 & B2 & B3). rewrite (ss_tracked _ _ _ _ _ S). split; auto. intros K1. destruct (ss_new3 _ _ _ _ _ S r y K1) as [|[]]; tauto.
    - intros K Hx. unfold SX in *. rewrite (ss_extseen _ _ _ _ _ S). destruct (dp c) eqn:Dp; auto. apply C; [apply Cl; auto|auto].
    - intros K Hx. unfold SE in *. rewrite (ss_peseen _ _ _ _ _ S). destruct (dp c) eqn:Dp; auto. apply F; [apply Cl; auto|auto].
  Qed.
  Lemma Inv_unexempt (X : nat -> Prop) a b w : shape w -> a < n -> b < n -> Inv X (Some (a, b)) w ->
    (rt w a = rt w b \/ ((forall y, SP X w (rt w a) y -> So w b y) /\ (SX X w (rt w a) -> E w b))) ->
    Inv X None w.
  Proof using.
    intros H Ha Hb I K r Hr R. destruct (I r Hr R) as [O XS ES A B C D]. split; auto.
    destruct O as [O1 O2 O3 O4 O5 O6]. split; auto. intros q Hq. right. destruct (O1 q Hq) as [[X1 X2]|]; auto.
    rewrite R in X1.
    assert (SQ : forall y, So w b y -> So w q y).
    { intros y. unfold So, E, Pt, pset. fold (rt w q) (rt w b). rewrite X2. auto. }
    assert (EQ : E w b -> E w q) by (unfold E; rewrite X2; auto).
    destruct K as [K|[K1 K2]].
    - split.
      + intros y [Hy _]. apply SQ. right. unfold Pt, pset. fold (rt w b). rewrite <- K, <- X1. auto.
      + intros Hs. apply EQ. unfold E. rewrite <- K, <- X1. auto.
    - rewrite <- X1 in K1, K2. auto.
  Qed.
End WInv.
