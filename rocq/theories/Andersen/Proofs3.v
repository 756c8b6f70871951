(** The naive solver: constraints, escape rules, termination. *)
From stdpp Require Import base list list_numbers fin_sets gmap.
From Coq Require Import Lia.
From Verif.Andersen Require Import Model Spec Proofs Proofs2.

(** ** explicit closedness of a state *)
Definition cl_external (G : prog) (s : pos) (c : nat) : Prop :=
  (forall i, Some i ∈ cargs G c -> root s i ∈ fpe s) /\ (forall i, Some i ∈ couts G c -> root s i ∈ fext s).
Definition cl_pairs (s : pos) (l1 l2 : list (option nat)) (R : nat -> nat -> Prop) : Prop :=
  forall p, p ∈ zip l1 l2 -> match p with (Some i, Some j) => R i j | _ => True end.
Definition cl_internal (G : prog) (s : pos) (c f : nat) : Prop :=
  cl_pairs s (cargs G c) (fargs G f) (fun i j => incl s j i) /\ cl_pairs s (couts G c) (fresults G f) (incl s).
Definition cl_call (G : prog) (kd : nat -> kind) (s : pos) (c f : nat) : Prop :=
  match kd f with ImportMO => cl_external G s c | FunctionMO => cl_internal G s c f | _ => True end.
Definition cl_cstr (G : prog) (s : pos) (c : cstr) : Prop :=
  match c with
  | CSuper a b => incl s a b
  | CStore p v => (forall x, x ∈ pset s p -> incl s x v) /\ (root s p ∈ fext s -> root s v ∈ fpe s)
  | CLoad v p => (forall x, x ∈ pset s p -> incl s v x) /\ (root s p ∈ fext s -> root s v ∈ fext s)
  | CCall p c => (forall f, f ∈ pset s p -> cl_call G (kindof s) s c f) /\ (root s p ∈ fext s -> cl_external G s c)
  end.
Record closed (G : prog) (s : pos) : Prop := {
  cd_sas : forall i y, i < npo s -> root s i ∈ fsas s -> y ∈ pset s i -> root s y ∈ fext s;
  cd_las : forall i y, i < npo s -> root s i ∈ flas s -> y ∈ pset s i -> root s y ∈ fpe s;
  cd_pe : forall i y, i < npo s -> root s i ∈ fpe s -> y ∈ pset s i -> y ∈ fesc s;
  cd_fargs : forall f i, f ∈ functions G -> f ∈ fesc s -> Some i ∈ fargs G f -> root s i ∈ fext s;
  cd_fres : forall f i, f ∈ functions G -> f ∈ fesc s -> Some i ∈ fresults G f -> root s i ∈ fpe s }.

Section Naive.
  Context (ord : forall A : Type, nat -> list A -> list A) (ord_perm : forall A k (l : list A), ord A k l ≡ₚ l).
  Context (s0 : pos) (G : prog) (WG : wf_prog (npo s0) (kindof s0) G).
  Notation W := (W s0). Notation op_ok := (op_ok s0). Notation est := (est s0).

  Lemma ok_forsome l f : (forall i, Some i ∈ l -> op_ok (f i)) -> op_ok (forsome l f).
  Proof using. intros H. apply ok_for. intros [i|] Hi; [auto|apply ok_nop]. Qed.
  Lemma est_forsome l f Q : (forall i, Some i ∈ l -> op_ok (f i)) -> (forall i, invariant_Q (Q i)) ->
    (forall i, Some i ∈ l -> est (f i) (Q i)) -> est (forsome l f) (fun s => forall i, Some i ∈ l -> Q i s).
  Proof using.
    intros O I H. unfold forsome. eapply est_weaken.
    - apply (est_for s0 l _ (fun o s => match o with Some i => Q i s | None => True end)).
      + intros [i|] Hi; [auto|apply ok_nop].
      + intros [i|]; [apply I|intros s s' _ _; auto].
      + intros [i|] Hi; [auto|]. intros s s' _ _. auto.
    - intros s HW H' i Hi. apply (H' (Some i)); auto.
  Qed.
  Lemma ok_forpairs l1 l2 f : (forall i j, Some i ∈ l1 -> Some j ∈ l2 -> op_ok (f i j)) -> op_ok (forpairs l1 l2 f).
  Proof using.
    intros H. apply ok_for. intros [[i|] [j|]] Hi; try apply ok_nop.
    apply H; [eapply elem_of_zip_l; eauto|eapply elem_of_zip_r; eauto].
  Qed.
  Lemma est_forpairs l1 l2 f (Q : nat -> nat -> pos -> Prop) : (forall i j, Some i ∈ l1 -> Some j ∈ l2 -> op_ok (f i j)) -> (forall i j, invariant_Q (Q i j)) ->
    (forall i j, Some i ∈ l1 -> Some j ∈ l2 -> est (f i j) (Q i j)) -> est (forpairs l1 l2 f) (fun s => cl_pairs s l1 l2 (fun i j => Q i j s)).
  Proof using.
    intros O I H. unfold forpairs. eapply est_weaken.
    - apply (est_for s0 _ _ (fun p s => match p with (Some i, Some j) => Q i j s | _ => True end)).
      + intros [[i|] [j|]] Hi; try apply ok_nop. apply O; [eapply elem_of_zip_l; eauto|eapply elem_of_zip_r; eauto].
      + intros [[i|] [j|]]; try (intros s s' _ _; auto; fail). apply I.
      + intros [[i|] [j|]] Hi; try (intros s s' _ _; auto; fail). apply H; [eapply elem_of_zip_l; eauto|eapply elem_of_zip_r; eauto].
    - intros s HW H'. exact H'.
  Qed.

  Lemma ok_external c : op_ok (calling_external G c).
  Proof using WG.
    apply ok_seq; apply ok_forsome; intros i Hi.
    - apply ok_mark_pe. eapply wg_cargs; eauto.
    - apply ok_mark_ext. eapply wg_couts; eauto.
  Qed.
  Lemma inv_external c : invariant_Q (fun s => cl_external G s c).
  Proof using. intros s s' E [H1 H2]. split; intros i Hi; [apply (inv_pe i s s' E)|apply (inv_ext i s s' E)]; auto. Qed.
  Lemma est_external c : est (calling_external G c) (fun s => cl_external G s c).
  Proof using WG.
    apply est_seq.
    - apply ok_forsome. intros i Hi. apply ok_mark_pe. eapply wg_cargs; eauto.
    - apply ok_forsome. intros i Hi. apply ok_mark_ext. eapply wg_couts; eauto.
    - intros s s' E H i Hi. apply (inv_ext i s s' E). auto.
    - apply est_forsome; intros; [apply ok_mark_pe; eapply wg_cargs; eauto|apply inv_pe|apply est_mark_pe].
    - apply est_forsome; intros; [apply ok_mark_ext; eapply wg_couts; eauto|apply inv_ext|apply est_mark_ext].
  Qed.
  Lemma ok_params c f : op_ok (forpairs (cargs G c) (fargs G f) (fun i j => make_superset ord j i)).
  Proof using ord_perm WG. apply ok_forpairs. intros. apply ok_make_superset; auto; [eapply wg_fargs|eapply wg_cargs]; eauto. Qed.
  Lemma ok_returns c f : op_ok (forpairs (couts G c) (fresults G f) (make_superset ord)).
  Proof using ord_perm WG. apply ok_forpairs. intros. apply ok_make_superset; auto; [eapply wg_couts|eapply wg_fresults]; eauto. Qed.
  Lemma ok_lambda c f : op_ok (calling_lambda ord G c f).
  Proof using ord_perm WG. apply ok_seq; [apply ok_params|apply ok_returns]. Qed.
  Lemma inv_pairs l1 l2 (Q : nat -> nat -> pos -> Prop) : (forall i j, invariant_Q (Q i j)) -> invariant_Q (fun s => cl_pairs s l1 l2 (fun i j => Q i j s)).
  Proof using. intros I s s' E H [[i|] [j|]] Hp; auto. apply (I i j s s' E). apply (H _ Hp). Qed.
  Lemma inv_internal c f : invariant_Q (fun s => cl_internal G s c f).
  Proof using.
    intros s s' E [H1 H2]. split.
    - eapply (inv_pairs _ _ (fun i j s => incl s j i)); eauto. intros. apply inv_incl.
    - eapply (inv_pairs _ _ (fun i j s => incl s i j)); eauto. intros. apply inv_incl.
  Qed.
  Lemma est_lambda c f : est (calling_lambda ord G c f) (fun s => cl_internal G s c f).
  Proof using ord_perm WG.
    apply est_seq; [apply ok_params|apply ok_returns| | |].
    - apply (inv_pairs _ _ (fun i j s => incl s i j)). intros. apply inv_incl.
    - apply (est_forpairs _ _ _ (fun i j s => incl s j i)); intros; [|apply inv_incl|].
      + apply ok_make_superset; auto; [eapply wg_fargs|eapply wg_cargs]; eauto.
      + apply est_make_superset; auto; [eapply wg_fargs|eapply wg_cargs]; eauto.
    - apply (est_forpairs _ _ _ (fun i j s => incl s i j)); intros; [|apply inv_incl|].
      + apply ok_make_superset; auto; [eapply wg_couts|eapply wg_fresults]; eauto.
      + apply est_make_superset; auto; [eapply wg_couts|eapply wg_fresults]; eauto.
  Qed.

  (** ** ApplyDirectly *)
  Definition valid (x : nat) : Prop := x < npo s0 /\ kindof s0 x <> Register.
  Lemma pset_valid' p s : W s -> forall x, x ∈ pset s p -> valid x.
  Proof using. intros HW x Hx. eapply pset_valid; eauto. Qed.

  Definition call_body (c f : nat) : op := fun s =>
    match kindof s f with ImportMO => calling_external G c s | FunctionMO => calling_lambda ord G c f s | _ => (s, false) end.
  Lemma ok_call_body c f : op_ok (call_body c f).
  Proof using ord_perm WG.
    intros s s' b HW E. unfold call_body in E. destruct (kindof s f); try (eapply ok_nop; eauto; fail).
    - eapply ok_lambda; eauto.
    - eapply ok_external; eauto.
  Qed.
  Lemma est_call_body c f : est (call_body c f) (fun s => cl_call G (kindof s) s c f).
  Proof using ord_perm WG.
    intros s s' HW E. unfold call_body in E. unfold cl_call. destruct (kindof s f); auto.
    - eapply est_lambda; eauto.
    - eapply est_external; eauto.
  Qed.
  Lemma inv_call c f : invariant_Q (fun s => cl_call G (kindof s) s c f).
  Proof using.
    intros s s' E H. unfold cl_call in *. rewrite (st_kind _ _ (eqv_static _ _ E)) in H. destruct (kindof s f); auto.
    - eapply inv_internal; eauto.
    - eapply inv_external; eauto.
  Qed.

  Lemma ok_apply c : cstr_in (npo s0) c -> op_ok (apply ord G c).
  Proof using ord_perm WG.
    destruct c as [a b|p v|v p|p c]; cbn [cstr_in apply]; intros H.
    - apply ok_make_superset; tauto.
    - apply ok_seq.
      + apply ok_forset_valid; auto; [intros; eapply pset_valid; eauto|]. intros. apply ok_make_superset; tauto.
      + apply ok_if, ok_mark_pe; tauto.
    - apply ok_seq.
      + apply ok_forset_valid; auto; [intros; eapply pset_valid; eauto|]. intros. apply ok_make_superset; tauto.
      + apply ok_if, ok_mark_ext; tauto.
    - apply ok_seq.
      + apply ok_forset_valid; auto; [intros; eapply pset_valid; eauto|]. intros. apply ok_call_body.
      + apply ok_if, ok_external.
  Qed.
  Lemma is_ext_true s i : is_ext s i = true <-> root s i ∈ fext s.
  Proof using. unfold is_ext. apply bool_decide_eq_true. Qed.
  Lemma inv_imp_ext p Q : invariant_Q Q -> invariant_Q (fun s => is_ext s p = true -> Q s).
  Proof using.
    intros I s s' E H Hx. apply (I s s' E). apply H. rewrite is_ext_true in *.
    rewrite (eqv_ext _ _ E), (static_root _ _ _ (eqv_static _ _ E)). auto.
  Qed.
  Lemma est_apply c : cstr_in (npo s0) c -> est (apply ord G c) (fun s => cl_cstr G s c).
  Proof using ord_perm WG.
    destruct c as [a b|p v|v p|p c]; cbn [cstr_in apply cl_cstr]; intros H.
    - apply est_make_superset; tauto.
    - eapply est_weaken; [apply (est_seq s0 _ _ (fun s => forall x, x ∈ pset s p -> incl s x v) (fun s => is_ext s p = true -> root s v ∈ fpe s))|].
      + apply ok_forset_valid; auto; [intros; eapply pset_valid; eauto|]. intros. apply ok_make_superset; tauto.
      + apply ok_if, ok_mark_pe; tauto.
      + apply inv_imp_ext, inv_pe.
      + apply (est_forset ord ord_perm s0 _ _ valid (fun x s => incl s x v)); [intros; eapply pset_valid; eauto|..].
        * intros x []. apply ok_make_superset; tauto.
        * intros. apply inv_incl.
        * intros x []. apply est_make_superset; tauto.
      + apply est_if, est_mark_pe.
      + cbn. intros s _ [H1 H2]. setoid_rewrite is_ext_true in H2. auto.
    - eapply est_weaken; [apply (est_seq s0 _ _ (fun s => forall x, x ∈ pset s p -> incl s v x) (fun s => is_ext s p = true -> root s v ∈ fext s))|].
      + apply ok_forset_valid; auto; [intros; eapply pset_valid; eauto|]. intros. apply ok_make_superset; tauto.
      + apply ok_if, ok_mark_ext; tauto.
      + apply inv_imp_ext, inv_ext.
      + apply (est_forset ord ord_perm s0 _ _ valid (fun x s => incl s v x)); [intros; eapply pset_valid; eauto|..].
        * intros x []. apply ok_make_superset; tauto.
        * intros. apply inv_incl.
        * intros x []. apply est_make_superset; tauto.
      + apply est_if, est_mark_ext.
      + cbn. intros s _ [H1 H2]. setoid_rewrite is_ext_true in H2. auto.
    - eapply est_weaken; [apply (est_seq s0 _ _ (fun s => forall f, f ∈ pset s p -> cl_call G (kindof s) s c f) (fun s => is_ext s p = true -> cl_external G s c))|].
      + apply ok_forset_valid; auto; [intros; eapply pset_valid; eauto|]. intros. apply ok_call_body.
      + apply ok_if, ok_external.
      + apply inv_imp_ext, inv_external.
      + apply (est_forset ord ord_perm s0 _ _ valid (fun f s => cl_call G (kindof s) s c f)); [intros; eapply pset_valid; eauto|..].
        * intros x _. apply ok_call_body.
        * intros. apply inv_call.
        * intros x _. apply est_call_body.
      + apply est_if, est_external.
      + cbn. intros s _ [H1 H2]. setoid_rewrite is_ext_true in H2. auto.
  Qed.
  Lemma inv_cstr c : invariant_Q (fun s => cl_cstr G s c).
  Proof using.
    intros s s' E. destruct c as [a b|p v|v p|p c]; cbn [cl_cstr].
    - apply inv_incl; auto.
    - intros [H1 H2]. split.
      + intros x Hx. apply (inv_incl x v s s' E), H1. unfold pset in *. rewrite (eqv_pts _ _ E), (static_root _ _ _ (eqv_static _ _ E)). auto.
      + intros Hx. apply (inv_pe v s s' E), H2. rewrite (eqv_ext _ _ E), (static_root _ _ _ (eqv_static _ _ E)). auto.
    - intros [H1 H2]. split.
      + intros x Hx. apply (inv_incl v x s s' E), H1. unfold pset in *. rewrite (eqv_pts _ _ E), (static_root _ _ _ (eqv_static _ _ E)). auto.
      + intros Hx. apply (inv_ext v s s' E), H2. rewrite (eqv_ext _ _ E), (static_root _ _ _ (eqv_static _ _ E)). auto.
    - intros [H1 H2]. split.
      + intros x Hx. apply (inv_call c x s s' E), H1. unfold pset in *. rewrite (eqv_pts _ _ E), (static_root _ _ _ (eqv_static _ _ E)). auto.
      + intros Hx. apply (inv_external c s s' E), H2. rewrite (eqv_ext _ _ E), (static_root _ _ _ (eqv_static _ _ E)). auto.
  Qed.

  (** ** scalar flags *)
  Definition scalar_body (idx : nat) : op :=
    ifop (fun s => is_root s idx)
        (ifop (fun s => is_sas s idx) (forset ord (fun s => pset s idx) mark_ext) ;+
         ifop (fun s => is_las s idx) (forset ord (fun s => pset s idx) mark_pe)).
  Lemma ok_scalar_body idx : op_ok (scalar_body idx).
  Proof using ord_perm.
    apply ok_if, ok_seq; apply ok_if; apply ok_forset_valid; auto; try (intros; eapply pset_valid; eauto; fail); intros.
    - apply ok_mark_ext; auto.
    - apply ok_mark_pe; auto.
  Qed.
  Definition scalar_cl (i : nat) (s : pos) : Prop :=
    is_root s i = true -> (is_sas s i = true -> forall y, y ∈ pset s i -> root s y ∈ fext s) /\
                          (is_las s i = true -> forall y, y ∈ pset s i -> root s y ∈ fpe s).
  Lemma inv_scalar_cl i : invariant_Q (scalar_cl i).
  Proof using.
    intros s s' E H Hr. unfold scalar_cl, is_root, is_sas, is_las, pset in *. rewrite !bool_decide_eq_true in *.
    destruct E as [S E1 E2 E3 E4]. rewrite E3, E2, (st_sas _ _ S), (st_las _ _ S) in H. repeat setoid_rewrite (static_root _ _ _ S) in H.
    setoid_rewrite E4 in H. auto.
  Qed.
  Lemma est_scalar_body i : est (scalar_body i) (scalar_cl i).
  Proof using ord_perm.
    unfold scalar_body, scalar_cl. apply est_if, est_seq.
    - apply ok_if; apply ok_forset_valid; auto; [intros; eapply pset_valid; eauto|]. intros. apply ok_mark_ext; auto.
    - apply ok_if; apply ok_forset_valid; auto; [intros; eapply pset_valid; eauto|]. intros. apply ok_mark_pe; auto.
    - intros s s' E H H1 y Hy. apply (inv_pe y s s' E). destruct E as [S E1 E2 E3 E4]. apply H; unfold is_las, pset in *.
      + rewrite bool_decide_eq_true in *. rewrite (st_las _ _ S), (static_root _ _ _ S). auto.
      + rewrite E4, (static_root _ _ _ S). auto.
    - apply est_if. apply (est_forset ord ord_perm s0 _ _ valid (fun y s => root s y ∈ fext s)); [intros; eapply pset_valid; eauto|..].
      + intros x []. apply ok_mark_ext; auto.
      + intros. apply inv_ext.
      + intros. apply est_mark_ext.
    - apply est_if. apply (est_forset ord ord_perm s0 _ _ valid (fun y s => root s y ∈ fpe s)); [intros; eapply pset_valid; eauto|..].
      + intros x []. apply ok_mark_pe; auto.
      + intros. apply inv_pe.
      + intros. apply est_mark_pe.
  Qed.
  Lemma scalar_flags_eq s : W s -> scalar_flags ord s = forop (seq 0 (npo s0)) scalar_body s.
  Proof using. intros HW. unfold scalar_flags. rewrite (W_npo s0 s HW). reflexivity. Qed.
  Lemma ok_scalar_flags : op_ok (scalar_flags ord).
  Proof using ord_perm. intros s s' b HW E. rewrite scalar_flags_eq in E by auto. revert E. apply ok_for; auto. intros. apply ok_scalar_body. Qed.
  Lemma est_scalar_flags : est (scalar_flags ord) (fun s => forall i, i < npo s0 -> scalar_cl i s).
  Proof using ord_perm.
    intros s s' HW E i Hi. rewrite scalar_flags_eq in E by auto.
    eapply (est_for s0 (seq 0 (npo s0)) scalar_body scalar_cl); [| | |exact HW|exact E|apply elem_of_seq; lia].
    - intros. apply ok_scalar_body.
    - apply inv_scalar_cl.
    - intros. apply est_scalar_body.
  Qed.

  (** ** the queue of pointee escapers *)
  Lemma escape_pointees_ok : forall l s s' b q, W s -> (forall y, y ∈ l -> valid y) -> escape_pointees l s = (s', b, q) ->
    W s' /\ le s s' /\ (b = false -> eqv s s' /\ forall y, y ∈ l -> y ∈ fesc s) /\ (b = true -> mu s < mu s') /\
    length q + size (fpe s) <= size (fpe s') /\ (forall x, x ∈ q -> x < npo s0).
  Proof using.
    clear ord_perm ord WG G. induction l as [|y l IH]; intros s s' b q HW HV E; cbn [escape_pointees] in E.
    { injection E as <- <- <-. split; auto. split; [apply le_refl|]. split; [intros; split; [apply eqv_refl|intros y Hy; inversion Hy]|].
      split; [discriminate|]. split; [cbn; lia|]. intros x Hx; inversion Hx. }
    destruct (mark_escaped y s) as [s1 b1] eqn:E1. destruct (escape_pointees l s1) as [[s2 b2] q2] eqn:E2. injection E as <- <- <-.
    assert (Vy : valid y) by (apply HV; left). destruct Vy as [Vy1 Vy2].
    destruct (ok_mark_escaped s0 y Vy1 Vy2 s s1 b1 HW E1) as (W1 & L1 & F1 & T1).
    destruct (IH _ _ _ _ W1 (fun z Hz => HV z (elem_of_list_further _ _ _ Hz)) E2) as (W2 & L2 & F2 & T2 & Sz & Q).
    pose proof (mu_le _ _ L1). pose proof (mu_le _ _ L2).
    split; auto. split; [eapply le_trans; eauto|]. split.
    { intros Hb. apply orb_false_iff in Hb as [-> ->]. destruct (F2 eq_refl) as [F2' F2'']. specialize (F1 eq_refl). split; [eapply eqv_trans; eauto|].
      intros z Hz. apply elem_of_cons in Hz as [->|Hz]; [eapply (est_mark_escaped s0); eauto|]. rewrite <- (eqv_esc _ _ F1). auto. }
    split.
    { intros Hb. apply orb_true_iff in Hb as [->| ->]; [specialize (T1 eq_refl)|specialize (T2 eq_refl)]; lia. }
    pose proof (subseteq_size _ _ (le_pe _ _ L1)).
    destruct (has_pe s (root s y)) eqn:Hp; [split; [lia|auto]|].
    assert (Hr : root s y < npo s0) by (rewrite (W_root s0 s y HW); eapply root0_lt; eauto).
    unfold has_pe in Hp. rewrite bool_decide_eq_false in Hp.
    assert (RR : root s (root s y) = root s y) by (apply root_root; [apply HW|rewrite (W_npo s0 s HW); auto]). rewrite RR in Hp.
    split.
    - cbn. destruct b1.
      + destruct (mark_escaped_state _ _ _ E1) as [_ [_ _ P _ _]]. rewrite P in Sz. rewrite size_union in Sz by set_solver. rewrite size_singleton in Sz. lia.
      + exfalso. apply Hp. apply (wf_esc_pe s (proj1 HW)). eapply (est_mark_escaped s0); eauto.
    - intros x Hx. apply elem_of_cons in Hx as [->|Hx]; auto.
  Qed.

  Lemma escape_loop_ok : forall fuel queue s, W s -> (forall x, x ∈ queue -> x < npo s0) ->
    length queue + npo s0 <= fuel + size (fpe s) ->
    exists s' b, escape_loop ord fuel queue s = Some (s', b) /\ W s' /\ le s s' /\
      (b = false -> eqv s s' /\ forall x y, x ∈ queue -> y ∈ pset s x -> y ∈ fesc s) /\ (b = true -> mu s < mu s').
  Proof using ord_perm.
    induction fuel as [|fuel IH]; intros queue s HW HQ Hf.
    - assert (B : size (fpe s) <= npo s0). { rewrite <- (W_npo s0 s HW). apply size_bound. intros; apply (wf_flags s (proj1 HW)); auto. }
      destruct queue as [|x queue]; [|cbn in Hf; lia]. exists s, false. cbn. split; auto. split; auto. split; [apply le_refl|].
      split; [|discriminate]. intros _. split; [apply eqv_refl|]. intros x y Hx. inversion Hx.
    - destruct queue as [|x queue].
      { exists s, false. cbn. split; auto. split; auto. split; [apply le_refl|]. split; [|discriminate]. intros _. split; [apply eqv_refl|]. intros x y Hx. inversion Hx. }
      cbn [escape_loop]. set (l := ord nat (tick s) (elements (pset s x))).
      destruct (escape_pointees l (bump s)) as [[s1 b1] q] eqn:E1.
      assert (Hl : forall y, y ∈ l <-> y ∈ pset s x). { intros y. unfold l. rewrite ord_perm. apply elem_of_elements. }
      destruct (escape_pointees_ok l _ _ _ _ (W_bump s0 s HW) (fun y Hy => pset_valid' x s HW y (proj1 (Hl y) Hy)) E1) as (W1 & L1 & F1 & T1 & Sz & Q).
      change (fpe (bump s)) with (fpe s) in Sz.
      destruct (IH (queue ++ q) s1 W1) as (s2 & b2 & E2 & W2 & L2 & F2 & T2).
      { intros z Hz. apply elem_of_app in Hz as [|]; auto. apply HQ. right; auto. }
      { rewrite app_length. cbn in Hf. lia. }
      rewrite E2. cbn. exists s2, (b1 || b2). split; auto. split; auto. split; [eapply le_trans; [apply eqv_le, eqv_bump|eapply le_trans; eauto]|].
      pose proof (mu_le _ _ L1). pose proof (mu_le _ _ L2). rewrite (mu_eqv _ _ (eqv_bump s)) in *.
      split.
      + intros Hb. apply orb_false_iff in Hb as [-> ->]. destruct (F1 eq_refl) as [F1a F1b]. destruct (F2 eq_refl) as [F2a F2b].
        assert (EQ : eqv s s1) by (eapply eqv_trans; [apply eqv_bump|auto]).
        split; [eapply eqv_trans; eauto|].
        intros z y Hz Hy. apply elem_of_cons in Hz as [->|Hz].
        * apply (F1b y). apply Hl; auto.
        * rewrite <- (eqv_esc _ _ EQ). apply (F2b z); [apply elem_of_app; auto|]. unfold pset in *. rewrite (eqv_pts _ _ EQ), (static_root _ _ _ (eqv_static _ _ EQ)). auto.
      + intros Hb. apply orb_true_iff in Hb as [->| ->]; [specialize (T1 eq_refl)|specialize (T2 eq_refl)]; lia.
  Qed.

  Lemma escape_flags_ok s : W s -> exists s' b, escape_flags ord s = Some (s', b) /\ W s' /\ le s s' /\
      (b = false -> eqv s s' /\ (forall i, i < npo s0 -> scalar_cl i s) /\
                    (forall x y, x < npo s0 -> is_root s x = true -> root s x ∈ fpe s -> y ∈ pset s x -> y ∈ fesc s)) /\ (b = true -> mu s < mu s').
  Proof using ord_perm.
    intros HW. unfold escape_flags. destruct (scalar_flags ord s) as [s1 b1] eqn:E1.
    destruct (ok_scalar_flags s s1 b1 HW E1) as (W1 & L1 & F1 & T1).
    assert (N1 : npo s1 = npo s0) by (apply W_npo; auto).
    destruct (escape_loop_ok (2 * npo s) (escape_queue s1) s1 W1) as (s2 & b2 & E2 & W2 & L2 & F2 & T2).
    { intros x Hx. unfold escape_queue in Hx. apply elem_of_list_filter in Hx as [_ Hx]. apply elem_of_seq in Hx. lia. }
    { rewrite (W_npo s0 s HW). assert (length (escape_queue s1) <= npo s0); [|lia].
      unfold escape_queue. etrans; [apply filter_length|]. rewrite seq_length. lia. }
    rewrite E2. cbn. exists s2, (b1 || b2). split; auto. split; auto. split; [eapply le_trans; eauto|].
    pose proof (mu_le _ _ L1). pose proof (mu_le _ _ L2). split.
    - intros Hb. apply orb_false_iff in Hb as [-> ->]. specialize (F1 eq_refl). destruct (F2 eq_refl) as [F2a F2b].
      split; [eapply eqv_trans; eauto|]. split; [eapply est_scalar_flags; eauto|].
      intros x y Hx Hr Hp Hy. rewrite <- (eqv_esc _ _ F1). apply (F2b x y).
      + unfold escape_queue. apply elem_of_list_filter. split; [|apply elem_of_seq; lia].
        unfold is_root, has_pe in *. rewrite bool_decide_eq_true in Hr. destruct F1 as [S E1' E2' E3' E4']. rewrite (static_root _ _ _ S), E2'.
        rewrite !bool_decide_eq_true_2; auto.
      + unfold pset in *. rewrite (eqv_pts _ _ F1), (static_root _ _ _ (eqv_static _ _ F1)). auto.
    - intros Hb. apply orb_true_iff in Hb as [->| ->]; [specialize (T1 eq_refl)|specialize (T2 eq_refl)]; lia.
  Qed.

  (** ** escaped functions *)
  Lemma ok_escaped_function f : op_ok (escaped_function G f).
  Proof using WG.
    apply ok_seq; apply ok_forsome; intros i Hi; apply ok_if; [apply ok_mark_ext|apply ok_mark_pe]; [eapply wg_fargs|eapply wg_fresults]; eauto.
  Qed.
  Lemma est_escaped_function f : est (escaped_function G f)
    (fun s => (forall i, Some i ∈ fargs G f -> root s i ∈ fext s) /\ (forall i, Some i ∈ fresults G f -> root s i ∈ fpe s)).
  Proof using WG.
    apply est_seq.
    - apply ok_forsome; intros i Hi; apply ok_if, ok_mark_ext. eapply wg_fargs; eauto.
    - apply ok_forsome; intros i Hi; apply ok_if, ok_mark_pe. eapply wg_fresults; eauto.
    - intros s s' E H i Hi. apply (inv_pe i s s' E). auto.
    - apply est_forsome; [intros i Hi; apply ok_if, ok_mark_ext; eapply wg_fargs; eauto|apply inv_ext|].
      intros i Hi s s' HW E. unfold ifop in E. destruct (is_ext s i) eqn:X; [apply is_ext_true; auto|]. eapply est_mark_ext; eauto.
    - apply est_forsome; [intros i Hi; apply ok_if, ok_mark_pe; eapply wg_fresults; eauto|apply inv_pe|].
      intros i Hi s s' HW E. unfold ifop in E. destruct (has_pe s i) eqn:X; [unfold has_pe in X; apply bool_decide_eq_true in X; auto|]. eapply est_mark_pe; eauto.
  Qed.
  Definition func_cl (f : nat) (s : pos) : Prop := has_escaped s f = true ->
    (forall i, Some i ∈ fargs G f -> root s i ∈ fext s) /\ (forall i, Some i ∈ fresults G f -> root s i ∈ fpe s).
  Lemma inv_func_cl f : invariant_Q (func_cl f).
  Proof using.
    intros s s' E H Hf. unfold func_cl, has_escaped in *. rewrite (eqv_esc _ _ E) in H. destruct (H Hf) as [H1 H2].
    split; intros i Hi; [apply (inv_ext i s s' E)|apply (inv_pe i s s' E)]; auto.
  Qed.
  Lemma ok_escaped_functions : op_ok (escaped_functions G).
  Proof using WG. apply ok_for. intros. apply ok_if, ok_escaped_function. Qed.
  Lemma est_escaped_functions : est (escaped_functions G) (fun s => forall f, f ∈ functions G -> func_cl f s).
  Proof using WG.
    apply (est_for s0 (functions G) _ func_cl).
    - intros. apply ok_if, ok_escaped_function.
    - apply inv_func_cl.
    - intros f Hf. unfold func_cl. apply est_if, est_escaped_function.
  Qed.

  (** ** one round *)
  Lemma naive_round_ok cs s : (forall c, c ∈ cs -> cstr_in (npo s0) c) -> W s ->
    exists s' b, naive_round ord G cs s = Some (s', b) /\ W s' /\ le s s' /\ (b = true -> mu s < mu s') /\
      (b = false -> closed G s' /\ forall c, c ∈ cs -> cl_cstr G s' c).
  Proof using ord_perm WG.
    intros HC HW. unfold naive_round. destruct (forop cs (apply ord G) s) as [s1 b1] eqn:E1.
    assert (O1 : op_ok (forop cs (apply ord G))) by (apply ok_for; intros; apply ok_apply; auto).
    destruct (O1 _ _ _ HW E1) as (W1 & L1 & F1 & T1).
    destruct (escape_flags_ok s1 W1) as (s2 & b2 & E2 & W2 & L2 & F2 & T2). rewrite E2. cbn.
    destruct (escaped_functions G s2) as [s3 b3] eqn:E3.
    destruct (ok_escaped_functions _ _ _ W2 E3) as (W3 & L3 & F3 & T3).
    exists s3, (b1 || b2 || b3). split; auto. split; auto. split; [eapply le_trans; [eauto|eapply le_trans; eauto]|].
    pose proof (mu_le _ _ L1). pose proof (mu_le _ _ L2). pose proof (mu_le _ _ L3). split.
    { intros Hb. apply orb_true_iff in Hb as [Hb| ->]; [apply orb_true_iff in Hb as [->| ->]|];
      [specialize (T1 eq_refl)|specialize (T2 eq_refl)|specialize (T3 eq_refl)]; lia. }
    intros Hb. apply orb_false_iff in Hb as [Hb ->]. apply orb_false_iff in Hb as [-> ->].
    specialize (F1 eq_refl). specialize (F3 eq_refl). destruct (F2 eq_refl) as (F2' & Sc & Pe).
    assert (Fn : forall f, f ∈ functions G -> func_cl f s2) by (eapply est_escaped_functions; eauto).
    assert (Cs : forall c, c ∈ cs -> cl_cstr G s c).
    { eapply (est_for s0 cs (apply ord G) (fun c s => cl_cstr G s c)); eauto.
      - intros; apply ok_apply; auto.
      - apply inv_cstr.
      - intros; apply est_apply; auto. }
    assert (sym : forall a b, eqv a b -> eqv b a). { intros a b [S Q1 Q2 Q3 Q4]. split; auto using static_sym. }
    assert (E31 : eqv s3 s1) by (apply sym; eapply eqv_trans; eauto).
    assert (E3s : eqv s3 s) by (eapply eqv_trans; [exact E31|apply sym; auto]).
    split; [|intros c Hc; eapply inv_cstr; [exact E3s|auto]].
    assert (N3 : npo s3 = npo s0) by (apply W_npo; auto).
    assert (RR : forall i, i < npo s3 -> root s3 (root s3 i) = root s3 i) by (intros; apply root_root; [apply W3|auto]).
    assert (RL : forall i, i < npo s3 -> root s3 i < npo s3) by (intros; apply root_lt; [apply W3|auto]).
    assert (Sc3 : forall i, i < npo s3 -> scalar_cl i s3) by (intros i Hi; eapply inv_scalar_cl; [exact E31|apply Sc; lia]).
    assert (Fn3 : forall f, f ∈ functions G -> func_cl f s3) by (intros f Hf; eapply inv_func_cl; [apply sym; exact F3|auto]).
    unfold scalar_cl, func_cl, is_root, is_sas, is_las, has_escaped, pset in *. setoid_rewrite bool_decide_eq_true in Sc3. setoid_rewrite bool_decide_eq_true in Fn3.
    split.
    - intros i y Hi Hs Hy. destruct (Sc3 (root s3 i) (RL i Hi) (RR i Hi)) as [A _]. rewrite (RR i Hi) in A. auto.
    - intros i y Hi Hs Hy. destruct (Sc3 (root s3 i) (RL i Hi) (RR i Hi)) as [_ A]. rewrite (RR i Hi) in A. auto.
    - intros i y Hi Hs Hy. rewrite <- (eqv_esc _ _ E31).
      apply (Pe (root s3 i) y); rewrite <- ?N3; auto; rewrite ?bool_decide_eq_true; rewrite ?(static_root _ _ _ (eqv_static _ _ E31)).
      + rewrite (RR i Hi). auto.
      + rewrite (RR i Hi), (eqv_pe _ _ E31). auto.
      + rewrite (RR i Hi), (eqv_pts _ _ E31). auto.
    - intros f i Hf He Hi. destruct (Fn3 f Hf He) as [A _]. auto.
    - intros f i Hf He Hi. destruct (Fn3 f Hf He) as [_ A]. auto.
  Qed.
End Naive.
