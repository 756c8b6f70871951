(** The worklist solver: unification, and the other steps that are not simple. *)
From stdpp Require Import base list list_numbers fin_sets gmap.
From Coq Require Import Lia.
From Verif.Andersen Require Import Model Spec Proofs Proofs2 Proofs3 Proofs4 Proofs5 WModel WProofs WProofs2 WProofs3.

Section WUnify.
  Context (G : prog) (c : cfg) (n : nat) (kd : nat -> kind) (WG : wf_prog n kd G).
  Notation shape := (shape c n kd). Notation sstep := (sstep G c). Notation step := (step G c n kd). Notation ok := (ok G c n kd).
  Notation vld := (vld n kd). Notation rt := WModel.rt. Notation Xc := (Xc G). Notation Ic := (Ic G).
  Notation wle := (wle n). Notation Inv := (Inv G c n kd). Notation inv_at := (inv_at G c kd). Notation ob := (ob G kd). Notation exc_in := (exc_in n).

  Record merged (w w' : ws) (r nr : nat) : Prop := {
    mg_un : unified (P w) (P w') r nr; mg_wf : wf (P w'); mg_tick : tick (P w') = tick (P w);
    mg_edges : forall x, edges (tb w') x = if decide (x = nr) then ∅ else if decide (x = r) then (edges (tb w) r ∪ edges (tb w) nr) ∖ {[r; nr]} else edges (tb w) x;
    mg_stc : forall x, stc (tb w') x = if decide (x = nr) then ∅ else if decide (x = r) then stc (tb w) r ∪ stc (tb w) nr else stc (tb w) x;
    mg_ldc : forall x, ldc (tb w') x = if decide (x = nr) then ∅ else if decide (x = r) then ldc (tb w) r ∪ ldc (tb w) nr else ldc (tb w) x;
    mg_clc : forall x, clc (tb w') x = if decide (x = nr) then ∅ else if decide (x = r) then clc (tb w) r ∪ clc (tb w) nr else clc (tb w) x;
    mg_wl : wl w' = wl w; mg_newE : newE w' = newE w;
    mg_o2t : o2t (cy w') = o2t (cy w); mg_t2o : t2o (cy w') = t2o (cy w); mg_checked : checked (cy w') = checked (cy w);
    mg_ref : hcd c = false -> cy w' = cy w; mg_refv : forall i x, refroot (cy w') i = Some x -> exists j, refroot (cy w) j = Some x;
    mg_df : df w' = if dp c then df (on_unified r nr w) else df w }.
  Lemma wunify_raw a b w : shape w -> a < n -> b < n -> let '(w', r) := wunify c a b w in
    (rt w a = rt w b /\ w' = w /\ r = rt w a) \/
    (rt w a <> rt w b /\ exists nr, (r = rt w a /\ nr = rt w b \/ r = rt w b /\ nr = rt w a) /\ merged w w' r nr).
  Proof using.
    intros H Ha Hb. unfold wunify. destruct (decide (rt w a = rt w b)) as [e|ne]; [left; auto|].
    destruct (unify (rt w a) (rt w b) (P w)) as [p r] eqn:Eu.
    pose proof (rt_lt c n kd w a H Ha) as La. pose proof (rt_lt c n kd w b H Hb) as Lb.
    pose proof (rt_rt c n kd w a H Ha) as Ra. pose proof (rt_rt c n kd w b H Hb) as Rb.
    rewrite <- (sh_npo _ _ _ w H) in La, Lb.
    assert (Tk : tick p = tick (P w)).
    { unfold unify in Eu. destruct (decide _); [injection Eu as <- <-; auto|]. destruct (if decide _ then _ else _). injection Eu as <- <-. auto. }
    destruct (unify_spec (P w) _ _ p r (sh_wf _ _ _ w H) La Lb Eu) as [(e & _)|(_ & Wp & old & U & C)].
    { fold (rt w (rt w a)) (rt w (rt w b)) in e. congruence. }
    fold (rt w (rt w a)) (rt w (rt w b)) in C. rewrite Ra, Rb in C.
    assert (Enr : (if decide (r = rt w a) then rt w b else rt w a) = old).
    { destruct C as [[-> ->]|[-> ->]]; [rewrite decide_True; auto|rewrite decide_False; auto]. }
    rewrite Enr. right. split; auto. exists old. split; [auto|].
    split.
    all: try (destruct (hcd c); [repeat destruct (refroot _ _)|]; destruct (dp c); cbn; auto; fail).
    all: try (intros x; destruct (hcd c); [repeat destruct (refroot _ _)|]; destruct (dp c); cbn; unfold upd; (destruct (decide (x = old)); [auto|]); (destruct (decide (x = r)); subst; auto); fail).
    - intros ->. destruct (dp c); auto.
    - intros i x. destruct (hcd c); [|destruct (dp c); cbn; eauto].
      destruct (dp c); cbn; (destruct (refroot (cy w) r); [eauto|]); (destruct (refroot (cy w) old) as [z|] eqn:Ez; cbn; [|eauto]);
        unfold upd; (destruct (decide (i = r)); [intros [= <-]; eauto|eauto]).
  Qed.

  Lemma mg_rt w w' r nr x : shape w -> merged w w' r nr -> x < n -> rt w' x = if decide (rt w x = nr) then r else rt w x.
  Proof using. intros H M Hx. apply (un_root _ _ _ _ (mg_un _ _ _ _ M)). rewrite (sh_npo _ _ _ w H). auto. Qed.
  Lemma mg_r w w' r nr : shape w -> merged w w' r nr -> r < n /\ rt w r = r /\ nr < n /\ rt w nr = nr /\ r <> nr.
  Proof using. intros H M. rewrite <- (sh_npo _ _ _ w H). destruct (mg_un _ _ _ _ M). unfold WModel.rt. tauto. Qed.
  Lemma mg_shape w w' r nr : shape w -> merged w w' r nr -> shape w'.
  Proof using.
    intros H M. pose proof (mg_rt w w' r nr) as R. destruct (mg_r w w' r nr H M) as (Lr & Rr & Ln & Rn & Ne).
    assert (Rt : forall x, x < n -> rt w x = x -> x <> nr -> rt w' x = x) by (intros x Hx E N; rewrite (R x H M Hx), decide_False; congruence).
    destruct (mg_un _ _ _ _ M) as [U1 U2 _ _ _ _ _ _ _ _ _ _ Up]. destruct H as [S1 S2 S3 S4 S5 S6 S7 S8 S9 S10 S11]. split.
    - apply M.
    - congruence.
    - congruence.
    - intros x q. rewrite (mg_edges _ _ _ _ M). destruct (decide (x = nr)) as [->|]; [intros []%elem_of_empty|]. destruct (decide (x = r)) as [->|].
      + rewrite elem_of_difference, elem_of_union. intros [[K|K] _]; apply S4 in K as (K1 & K2 & K3); auto.
      + intros K. apply S4 in K as (K1 & K2 & K3). auto.
    - intros x q. rewrite (mg_stc _ _ _ _ M). destruct (decide (x = nr)) as [->|]; [intros []%elem_of_empty|]. destruct (decide (x = r)) as [->|].
      + rewrite elem_of_union. intros [K|K]; apply S5 in K as (K1 & K2 & K3); auto.
      + intros K. apply S5 in K as (K1 & K2 & K3). auto.
    - intros x q. rewrite (mg_ldc _ _ _ _ M). destruct (decide (x = nr)) as [->|]; [intros []%elem_of_empty|]. destruct (decide (x = r)) as [->|].
      + rewrite elem_of_union. intros [K|K]; apply S6 in K as (K1 & K2 & K3); auto.
      + intros K. apply S6 in K as (K1 & K2 & K3). auto.
    - intros x q. rewrite (mg_clc _ _ _ _ M). destruct (decide (x = nr)) as [->|]; [intros []%elem_of_empty|]. destruct (decide (x = r)) as [->|].
      + rewrite elem_of_union. intros [K|K]; apply S7 in K as (K1 & K2); auto.
      + intros K. apply S7 in K as (K1 & K2). auto.
    - rewrite (mg_newE _ _ _ _ M). auto.
    - rewrite (mg_wl _ _ _ _ M). auto.
    - intros D x y. rewrite (mg_df _ _ _ _ M), Up, D. cbn.
      unfold upd. destruct (decide (x = r)); [intros []%elem_of_empty|]. destruct (decide (x = nr)); [intros []%elem_of_empty|]. auto.
    - intros i x Hx. apply (mg_refv _ _ _ _ M) in Hx as [j Hj]. eauto.
  Qed.
  Lemma mg_wle w w' r nr : shape w -> merged w w' r nr -> wle w w'.
  Proof using.
    intros H M. pose proof (mg_rt w w' r nr) as R. destruct (mg_r w w' r nr H M) as (Lr & Rr & Ln & Rn & Ne).
    assert (Rr' : rt w' r = r) by (rewrite (R r H M Lr), decide_False; congruence).
    assert (Q : forall x, x < n -> (rt w x = nr /\ rt w' x = r) \/ (rt w x <> nr /\ rt w' x = rt w x)).
    { intros x Hx. rewrite (R x H M Hx). destruct (decide (rt w x = nr)); auto. }
    destruct (mg_un _ _ _ _ M) as [U1 U2 _ Ue _ _ _ _ Upe Uext Usas Ulas Up].
    assert (Same : forall x y, x < n -> y < n -> rt w x = rt w y -> rt w' x = rt w' y).
    { intros x y Hx Hy E. rewrite (R x H M Hx), (R y H M Hy), E. auto. }
    assert (EE : forall x, x < n -> E w x -> E w' x).
    { intros x Hx K. unfold E in *. rewrite Uext. destruct (Q x Hx) as [[e ->]|[_ ->]]; [rewrite e in K|]; auto. }
    assert (PPp : forall x, x < n -> Pp w x -> Pp w' x).
    { intros x Hx K. unfold Pp in *. rewrite Upe. destruct (Q x Hx) as [[e ->]|[_ ->]]; [rewrite e in K|]; auto. }
    assert (L0 : forall a b, a < n -> b < n -> Lk0 w a b -> Lk0 w' a b).
    { intros a b Ha Hb [K|[(q & K1 & K2)|[K1 K2]]].
      - left. auto.
      - assert (Lq : q < n) by (eapply sh_edges; eauto).
        assert (Rq : rt w' q = rt w' a) by auto.
        assert (D : q ∈ edges (tb w') (rt w' b) \/ rt w' q = rt w' b).
        { rewrite (mg_edges _ _ _ _ M). destruct (Q b Hb) as [[e ->]|[ne ->]].
          - rewrite e in K1. rewrite decide_False, decide_True by auto. destruct (decide (q = r)) as [->|]; auto. destruct (decide (q = nr)) as [->|].
            + right. rewrite (R nr H M Ln), decide_True; auto.
            + left. rewrite elem_of_difference, !elem_of_union, !elem_of_singleton. tauto.
          - rewrite decide_False by auto. destruct (decide (rt w b = r)) as [er|]; [|auto]. rewrite er in *. destruct (decide (q = r)) as [->|]; auto. destruct (decide (q = nr)) as [->|].
            + right. rewrite (R nr H M Ln), decide_True; auto.
            + left. rewrite elem_of_difference, !elem_of_union, !elem_of_singleton. tauto. }
        destruct D as [D|D]; [right; left; eauto|left; congruence].
      - right. right. auto. }
    split; auto.
    - intros x Hx E. destruct (Q x Hx) as [[e1 e2]|[e1 e2]]; congruence.
    - intros x K. unfold Es in *. rewrite Ue. auto.
    - intros x y Hx [[K1 K2]|K]; [left; split; auto; unfold Es in *; rewrite Ue; auto|right].
      unfold Pt, pset in *. fold (rt w x) in K. fold (rt w' x). rewrite Up. destruct (Q x Hx) as [[e ->]|[ne ->]].
      + rewrite decide_False, decide_True by auto. rewrite e in K. apply elem_of_union. auto.
      + rewrite decide_False by auto. destruct (decide (rt w x = r)) as [er|]; auto. rewrite er in K. apply elem_of_union. auto.
    - intros x Hx K. unfold Sas in *. rewrite Usas. destruct (Q x Hx) as [[e ->]|[_ ->]]; [rewrite e in K|]; auto.
    - intros x Hx K. unfold Las in *. rewrite Ulas. destruct (Q x Hx) as [[e ->]|[_ ->]]; [rewrite e in K|]; auto.
    - intros a b Ha Hb [K|(x & y & K1 & K2 & K3)]; [left; auto|]. right. exists x, y. rewrite (mg_newE _ _ _ _ M).
      destruct (sh_newE _ _ _ w H x y K1). auto.
    - intros x v Hx K. rewrite (mg_stc _ _ _ _ M). destruct (Q x Hx) as [[e ->]|[ne ->]].
      + rewrite decide_False, decide_True by auto. rewrite e in K. apply elem_of_union. auto.
      + rewrite decide_False by auto. destruct (decide (rt w x = r)) as [er|]; auto. rewrite er in K. apply elem_of_union. auto.
    - intros x v Hx K. rewrite (mg_ldc _ _ _ _ M). destruct (Q x Hx) as [[e ->]|[ne ->]].
      + rewrite decide_False, decide_True by auto. rewrite e in K. apply elem_of_union. auto.
      + rewrite decide_False by auto. destruct (decide (rt w x = r)) as [er|]; auto. rewrite er in K. apply elem_of_union. auto.
    - intros x v Hx K. rewrite (mg_clc _ _ _ _ M). destruct (Q x Hx) as [[e ->]|[ne ->]].
      + rewrite decide_False, decide_True by auto. rewrite e in K. apply elem_of_union. auto.
      + rewrite decide_False by auto. destruct (decide (rt w x = r)) as [er|]; auto. rewrite er in K. apply elem_of_union. auto.
  Qed.
  Lemma mg_data w w' r nr x : merged w w' r nr -> x <> r -> x <> nr -> same_data w w' x.
  Proof using.
    intros M N1 N2. destruct (mg_un _ _ _ _ M) as [U1 U2 _ Ue _ _ _ _ Upe Uext Usas Ulas Up]. split.
    - rewrite (mg_edges _ _ _ _ M), !decide_False by auto. auto.
    - rewrite (mg_stc _ _ _ _ M), !decide_False by auto. auto.
    - rewrite (mg_ldc _ _ _ _ M), !decide_False by auto. auto.
    - rewrite (mg_clc _ _ _ _ M), !decide_False by auto. auto.
    - rewrite Up, !decide_False by auto. auto.
    - rewrite (mg_df _ _ _ _ M). destruct (dp c); auto. cbn. unfold upd. rewrite !decide_False; auto.
    - rewrite (mg_df _ _ _ _ M). destruct (dp c); [|tauto]. cbn. rewrite elem_of_difference, elem_of_singleton. tauto.
    - rewrite (mg_df _ _ _ _ M). destruct (dp c); [|tauto]. cbn. destruct (decide _); [tauto|]. rewrite elem_of_difference, elem_of_singleton. tauto.
    - rewrite (mg_df _ _ _ _ M). destruct (dp c); [|tauto]. cbn. destruct (decide _); [tauto|]. rewrite elem_of_difference, elem_of_singleton. tauto.
    - rewrite Uext. tauto.
    - rewrite Upe. tauto.
    - rewrite Usas. tauto.
    - rewrite Ulas. tauto.
  Qed.
  Lemma mg_Inv (X : nat -> Prop) exc w w' r nr : shape w -> exc_in exc -> merged w w' r nr -> Inv X exc w -> Inv (fun x => X x \/ x = r) exc w'.
  Proof using WG.
    intros H HE M I x Hx Rx'. pose proof (mg_wle _ _ _ _ H M) as L. pose proof (mg_shape _ _ _ _ H M) as H'. pose proof (mg_rt w w' r nr) as R.
    destruct (mg_r w w' r nr H M) as (Lr & Rr & Ln & Rn & Ne).
    assert (Nx : x <> nr) by (intros ->; rewrite (R nr H M Ln), decide_True in Rx'; auto).
    pose proof (le_root _ _ _ L x Hx Rx') as Rx.
    destruct (decide (x = r)) as [->|Nr].
    2: { apply (inv_at_same G c n kd WG X _ exc w w'); auto; [eapply mg_data; eauto|].
         unfold clean. rewrite (mg_wl _ _ _ _ M). tauto. }
    destruct (I r Lr Rr) as [O1 XS1 ES1 A1 B1 C1 F1], (I nr Ln Rn) as [O2 XS2 ES2 A2 B2 C2 F2].
    assert (NC : ~ clean (fun x => X x \/ x = r) w' r) by (intros [_ K]; apply K; auto).
    assert (NS : forall y, ~ SP c (fun x => X x \/ x = r) w' r y).
    { intros y [_ K]. rewrite (mg_df _ _ _ _ M) in K. destruct (dp c); [|tauto]. cbn in K. destruct K as [K _]. rewrite elem_of_difference, elem_of_singleton in K. tauto. }
    assert (SEs : SE c (fun x => X x \/ x = r) w' r -> SE c X w r /\ SE c X w nr).
    { unfold SE. rewrite (mg_df _ _ _ _ M). destruct (dp c); [|tauto]. cbn. destruct (decide _); [tauto|]. rewrite elem_of_difference, elem_of_singleton. tauto. }
    assert (SXs : SX c (fun x => X x \/ x = r) w' r -> SX c X w r /\ SX c X w nr).
    { unfold SX. rewrite (mg_df _ _ _ _ M). destruct (dp c); [|tauto]. cbn. destruct (decide _); [tauto|]. rewrite elem_of_difference, elem_of_singleton. tauto. }
    split; try (intros; exfalso; auto; fail).
    - split; try (intros y Hy K; exfalso; apply (NS y); auto; fail).
      + intros q Hq. assert (D : (q ∈ edges (tb w) r \/ q ∈ edges (tb w) nr) /\ q < n).
        { rewrite (mg_edges _ _ _ _ M), decide_False, decide_True, elem_of_difference, elem_of_union in Hq by auto.
          destruct Hq as [[K|K] _]; (split; [auto|apply (sh_edges _ _ _ w H _ _ K)]). }
        destruct D as [D Lq].
        assert (Q : exempt exc w r q \/ exempt exc w nr q \/ (SX c X w r -> SX c X w nr -> E w q)).
        { destruct D as [D|D]; [destruct (ob_edge _ _ _ _ _ _ _ O1 q D) as [|[_ K]]|destruct (ob_edge _ _ _ _ _ _ _ O2 q D) as [|[_ K]]]; auto. }
        destruct Q as [Q|[Q|Q]].
        * left. eapply exempt_wle; eauto.
        * left. assert (Q' : exempt exc w' nr q) by (apply (exempt_wle n exc w w'); auto). unfold exempt in *. destruct exc as [[a b]|]; auto.
          replace (rt w' r) with (rt w' nr); auto. rewrite (R nr H M Ln), (R r H M Lr), decide_True, decide_False; congruence.
        * right. split; [intros y Hy; destruct (NS y Hy)|]. intros K. apply (le_E _ _ _ L); auto. apply Q; apply SXs; auto.
      + intros q Hq. split; [intros y Hy; destruct (NS y Hy)|]. intros K. apply SXs in K as [K1 K2].
        rewrite (mg_stc _ _ _ _ M), decide_False, decide_True, elem_of_union in Hq by auto.
        destruct Hq as [Hq|Hq]; (apply (le_Pp _ _ _ L); [apply (sh_stc _ _ _ w H _ _ Hq)|]); [apply (ob_stc _ _ _ _ _ _ _ O1 q Hq)|apply (ob_stc _ _ _ _ _ _ _ O2 q Hq)]; auto.
      + intros q Hq. split; [intros y Hy; destruct (NS y Hy)|]. intros K. apply SXs in K as [K1 K2].
        rewrite (mg_ldc _ _ _ _ M), decide_False, decide_True, elem_of_union in Hq by auto.
        destruct Hq as [Hq|Hq]; (apply (le_E _ _ _ L); [apply (sh_ldc _ _ _ w H _ _ Hq)|]); [apply (ob_ldc _ _ _ _ _ _ _ O1 q Hq)|apply (ob_ldc _ _ _ _ _ _ _ O2 q Hq)]; auto.
      + intros q Hq. split; [intros y Hy; destruct (NS y Hy)|]. split; [intros y Hy; destruct (NS y Hy)|]. intros K. apply SXs in K as [K1 K2].
        rewrite (mg_clc _ _ _ _ M), decide_False, decide_True, elem_of_union in Hq by auto.
        apply (Xc_wle G n kd WG _ _ _ L). destruct Hq as [Hq|Hq]; [apply (ob_clc _ _ _ _ _ _ _ O1 q Hq)|apply (ob_clc _ _ _ _ _ _ _ O2 q Hq)]; auto.
    - intros K. apply SXs in K as [K1 K2]. apply (un_ext _ _ _ _ (mg_un _ _ _ _ M)). auto.
    - intros K. apply SEs in K as [K1 K2]. apply (un_pe _ _ _ _ (mg_un _ _ _ _ M)). auto.
    - intros K y Hy. destruct (NS y Hy).
  Qed.
End WUnify.
