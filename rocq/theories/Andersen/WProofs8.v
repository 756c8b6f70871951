(** The worklist solver: the constraints of one node, the whole visit, and the drivers. *)
From stdpp Require Import base list list_numbers fin_sets gmap.
From Coq Require Import Lia.
From Verif.Andersen Require Import Model Spec Proofs Proofs2 Proofs3 Proofs4 Proofs5 WModel WProofs WProofs2 WProofs3 WProofs4 WProofs5 WProofs6 WProofs7.

Section WVisit3.
  Context (ord : forall A : Type, nat -> list A -> list A) (ord_perm : forall A k (l : list A), ord A k l ≡ₚ l).
  Context (G : prog) (c : cfg) (n : nat) (kd : nat -> kind) (WG : wf_prog n kd G).
  Notation shape := (shape c n kd). Notation sstep := (sstep G c). Notation step := (step G c n kd). Notation ok := (ok G c n kd).
  Notation vld := (vld n kd). Notation rt := WModel.rt. Notation Xc := (Xc G). Notation Ic := (Ic G).
  Notation wle := (wle n). Notation Inv := (Inv G c n kd). Notation inv_at := (inv_at G c kd). Notation ob := (ob G kd). Notation exc_in := (exc_in n).
  Notation merged := (merged c). Notation FI := (FI G). Notation good := (good G c n kd). Notation Prom := (Prom c n).
  Notation mstep := (mstep G c n kd (fun _ _ => True) (fun _ => True)). Notation handled := WProofs7.handled.
  Context (I : nat -> Prop).

  (** one constraint [v] of the node: an action for each pointee, then one for external *)
  Lemma each_ok (f : nat -> ws -> ws) (g : ws -> ws) (np : gset nat) (nx : bool) :
    (forall y, y ∈ np -> ok I (f y)) -> ok I g -> ok I (fun w => let w := wforset ord np f w in if nx then g w else w).
  Proof using ord_perm.
    intros A B. apply (ok_comp G c n kd I (wforset ord np f) (fun w => if nx then g w else w)); [apply ok_wforset; auto|]. destruct nx; auto. apply ok_id.
  Qed.
  Lemma each_est (f : nat -> ws -> ws) (g : ws -> ws) (np : gset nat) (nx : bool) (Q : nat -> ws -> Prop) (R : ws -> Prop) :
    (forall y, y ∈ np -> ok I (f y)) -> ok I g -> (forall y, stable (Q y)) ->
    (forall y w, y ∈ np -> shape w -> Q y (f y w)) -> (forall w, shape w -> R (g w)) ->
    forall w, shape w -> let w' := (let w := wforset ord np f w in if nx then g w else w) in (forall y, y ∈ np -> Q y w') /\ (nx = true -> R w').
  Proof using ord_perm.
    intros A B SQ EQ ER w H. cbn zeta.
    pose proof (ok_wforset ord ord_perm G c n kd I np f A w H) as [H1 S1]. split.
    - intros y Hy. assert (K : Q y (wforset ord np f w)) by (apply (est_wforset ord ord_perm G c n kd I); auto).
      destruct nx; auto. eapply (ss_stable G c I); [apply SQ|apply B; auto|auto].
    - intros ->. apply ER; auto.
  Qed.
  Lemma stable_and (Q R : ws -> Prop) : stable Q -> stable R -> stable (fun w => Q w /\ R w).
  Proof using. intros A B w w' L N T [K1 K2]. split; [eapply A|eapply B]; eauto. Qed.
  Lemma stable_all (Q : ws -> Prop) (R : Prop) : stable Q -> stable (fun w => R -> Q w).
  Proof using. intros A w w' L N T K r. eapply A; eauto. Qed.
  Lemma stable_forall {A} (D : A -> Prop) (Q : A -> ws -> Prop) : (forall y, stable (Q y)) -> stable (fun w => forall y, D y -> Q y w).
  Proof using. intros K w w' L N T K1 y Hy. eapply K; eauto. Qed.

  Section Node.
  Context (node : nat) (np : gset nat) (nx : bool) (V : forall y, y ∈ np -> vld y).
  Lemma do_stores_spec w : shape w -> step I w (do_stores ord node np nx w) /\
    forall v, v ∈ stc (tb w) node -> (forall y, y ∈ np -> Lk (do_stores ord node np nx w) y v) /\ (nx = true -> Pp (do_stores ord node np nx w) v).
  Proof using ord_perm V.
    intros H. unfold do_stores.
    assert (A : forall v, v ∈ stc (tb w) node -> ok I (fun w => let w := wforset ord np (fun y => queue_edge y v) w in if nx then mark_pe_push v w else w)).
    { intros v Hv. destruct (sh_stc _ _ _ w H _ _ Hv) as (_ & _ & Lv). apply each_ok; [intros y Hy; destruct (V y Hy); apply ok_queue_edge; auto|apply ok_mark_pe_push; auto]. }
    split; [apply (ok_wforset ord ord_perm G c n kd I); auto|]. intros v Hv.
    refine (est_wforset ord ord_perm G c n kd I _ _ (fun v w => (forall y, y ∈ np -> Lk w y v) /\ (nx = true -> Pp w v)) A _ _ w v H Hv).
    - intros x. apply stable_and; [apply stable_forall; intros; apply stable_Lk|apply stable_all, stable_Pp].
    - intros x w1 Hx H1. destruct (sh_stc _ _ _ w H _ _ Hx) as (_ & _ & Lv).
      refine (each_est (fun y => queue_edge y x) (mark_pe_push x) np nx (fun y w => Lk w y x) (fun w => Pp w x) _ _ _ _ _ w1 H1).
      + intros y Hy; destruct (V y Hy); apply ok_queue_edge; auto.
      + apply ok_mark_pe_push; auto.
      + intros; apply stable_Lk.
      + intros y w2 Hy H2. destruct (V y Hy). apply (est_queue_edge c n kd); auto.
      + intros w2 H2. apply (est_mark_pe_push c n kd); auto.
  Qed.
  Lemma do_loads_spec w : shape w -> step I w (do_loads ord node np nx w) /\
    forall v, v ∈ ldc (tb w) node -> (forall y, y ∈ np -> Lk (do_loads ord node np nx w) v y) /\ (nx = true -> E (do_loads ord node np nx w) v).
  Proof using ord_perm V.
    intros H. unfold do_loads.
    assert (A : forall v, v ∈ ldc (tb w) node -> ok I (fun w => let w := wforset ord np (fun y => queue_edge v y) w in if nx then mark_ext_push v w else w)).
    { intros v Hv. destruct (sh_ldc _ _ _ w H _ _ Hv) as (_ & _ & Lv). apply each_ok; [intros y Hy; destruct (V y Hy); apply ok_queue_edge; auto|apply ok_mark_ext_push; auto]. }
    split; [apply (ok_wforset ord ord_perm G c n kd I); auto|]. intros v Hv.
    refine (est_wforset ord ord_perm G c n kd I _ _ (fun v w => (forall y, y ∈ np -> Lk w v y) /\ (nx = true -> E w v)) A _ _ w v H Hv).
    - intros x. apply stable_and; [apply stable_forall; intros; apply stable_Lk|apply stable_all, stable_E].
    - intros x w1 Hx H1. destruct (sh_ldc _ _ _ w H _ _ Hx) as (_ & _ & Lv).
      refine (each_est (fun y => queue_edge x y) (mark_ext_push x) np nx (fun y w => Lk w x y) (fun w => E w x) _ _ _ _ _ w1 H1).
      + intros y Hy; destruct (V y Hy); apply ok_queue_edge; auto.
      + apply ok_mark_ext_push; auto.
      + intros; apply stable_Lk.
      + intros y w2 Hy H2. destruct (V y Hy). apply (est_queue_edge c n kd); auto.
      + intros w2 H2. apply (est_mark_ext_push c n kd); auto.
  Qed.
  Lemma do_sas_spec w : shape w -> step I w (do_sas ord node np w) /\ (Sas w node -> forall y, y ∈ np -> E (do_sas ord node np w) y \/ Pp (do_sas ord node np w) node).
  Proof using ord_perm V.
    intros H. unfold do_sas. destruct (is_sas (P w) node && negb (has_pe (P w) node)) eqn:Ec.
    - assert (A : forall v, v ∈ np -> ok I (mark_ext_push v)) by (intros v Hv; apply ok_mark_ext_push; apply V; auto).
      split; [apply (ok_wforset ord ord_perm G c n kd I); auto|]. intros _ y Hy. left.
      refine (est_wforset ord ord_perm G c n kd I np mark_ext_push (fun v w => E w v) A _ _ w y H Hy); [intros; apply stable_E|].
      intros x w1 Hx H1. apply (est_mark_ext_push c n kd); auto. apply V; auto.
    - split; [apply step_refl; auto|]. intros S y Hy. right. apply andb_false_iff in Ec as [Ec|Ec]; [apply bool_decide_eq_false in Ec; tauto|].
      apply negb_false_iff, pe_iff in Ec. auto.
  Qed.
  Lemma do_las_spec w : shape w -> step I w (do_las ord node np w) /\ (Las w node -> forall y, y ∈ np -> Pp (do_las ord node np w) y \/ Pp (do_las ord node np w) node).
  Proof using ord_perm V.
    intros H. unfold do_las. destruct (is_las (P w) node && negb (has_pe (P w) node)) eqn:Ec.
    - assert (A : forall v, v ∈ np -> ok I (mark_pe_push v)) by (intros v Hv; apply ok_mark_pe_push; apply V; auto).
      split; [apply (ok_wforset ord ord_perm G c n kd I); auto|]. intros _ y Hy. left.
      refine (est_wforset ord ord_perm G c n kd I np mark_pe_push (fun v w => Pp w v) A _ _ w y H Hy); [intros; apply stable_Pp|].
      intros x w1 Hx H1. apply (est_mark_pe_push c n kd); auto. apply V; auto.
    - split; [apply step_refl; auto|]. intros S y Hy. right. apply andb_false_iff in Ec as [Ec|Ec]; [apply bool_decide_eq_false in Ec; tauto|].
      apply negb_false_iff, pe_iff in Ec. auto.
  Qed.
  Lemma do_calls_spec w : shape w -> step I w (do_calls ord G node np nx w) /\
    forall k, k ∈ clc (tb w) node -> let w' := do_calls ord G node np nx w in
      (forall y, y ∈ np -> kd y = ImportMO -> Xc w' k) /\ (forall y, y ∈ np -> kd y = FunctionMO -> Ic w' k y) /\ (nx = true -> Xc w' k).
  Proof using ord_perm V WG.
    intros H. unfold do_calls. cbn zeta.
    set (f := fun k y w => match kindof (P w) y with ImportMO => wcalling_external G k w | FunctionMO => wcalling_lambda G k y w | _ => w end).
    assert (Af : forall k y, ok I (f k y)).
    { intros k y w1 H1. unfold f. destruct (kindof (P w1) y); try (apply step_refl; auto); [apply ok_wcalling_lambda|apply ok_wcalling_external]; auto. }
    assert (A : forall k, k ∈ clc (tb w) node -> ok I (fun w => let w := wforset ord np (f k) w in if nx then wcalling_external G k w else w)).
    { intros v Hv. apply each_ok; [auto|apply ok_wcalling_external; auto]. }
    split; [apply (ok_wforset ord ord_perm G c n kd I); auto|]. intros k Hk.
    pose (Q := fun k w => (forall y, y ∈ np -> (kd y = ImportMO -> Xc w k) /\ (kd y = FunctionMO -> Ic w k y)) /\ (nx = true -> Xc w k)).
    assert (K : Q k (wforset ord (clc (tb w) node) (fun k w => let w := wforset ord np (f k) w in if nx then wcalling_external G k w else w) w)).
    { refine (est_wforset ord ord_perm G c n kd I _ _ Q A _ _ w k H Hk).
      - intros x. apply stable_and; [|apply stable_all, stable_Xc]. apply stable_forall. intros y. apply stable_and; apply stable_all; [apply stable_Xc|apply stable_Ic].
      - intros x w1 Hx H1. unfold Q.
        refine (each_est (f x) (wcalling_external G x) np nx (fun y w => (kd y = ImportMO -> Xc w x) /\ (kd y = FunctionMO -> Ic w x y)) (fun w => Xc w x) _ _ _ _ _ w1 H1).
        + auto.
        + apply ok_wcalling_external; auto.
        + intros y. apply stable_and; apply stable_all; [apply stable_Xc|apply stable_Ic].
        + intros y w2 Hy H2. unfold f. rewrite (sh_kind _ _ _ w2 H2). destruct (kd y); (split; intros e; try discriminate).
          * apply (est_wcalling_lambda G c n kd WG); auto.
          * apply (est_wcalling_external G c n kd WG); auto.
        + intros w2 H2. apply (est_wcalling_external G c n kd WG); auto. }
    destruct K as [K1 K2]. split; [|split].
    - intros y Hy. apply (K1 y Hy).
    - intros y Hy. apply (K1 y Hy).
    - exact K2.
  Qed.
  End Node.
End WVisit3.
