(** The naive solver: every operation only adds facts, reports truthfully whether
    it did, and what a round without changes establishes. *)
From stdpp Require Import base list list_numbers fin_sets gmap.
From Coq Require Import Lia.
From Verif.Andersen Require Import Model Spec Proofs.

Record static (s s' : pos) : Prop := {
  st_npo : npo s' = npo s; st_kind : kindof s' = kindof s; st_can : canpoint s' = canpoint s;
  st_par : par s' = par s; st_rank : rank s' = rank s; st_sas : fsas s' = fsas s; st_las : flas s' = flas s }.
Lemma static_refl s : static s s.
Proof. split; auto. Qed.
Lemma static_trans s1 s2 s3 : static s1 s2 -> static s2 s3 -> static s1 s3.
Proof. intros [] []. split; congruence. Qed.
Lemma static_sym s1 s2 : static s1 s2 -> static s2 s1.
Proof. intros []. split; congruence. Qed.
Lemma static_root s s' i : static s s' -> root s' i = root s i.
Proof. intros []. unfold root, uf_fuel. congruence. Qed.

Record le (s s' : pos) : Prop := {
  le_static : static s s'; le_esc : fesc s ⊆ fesc s'; le_pe : fpe s ⊆ fpe s'; le_ext : fext s ⊆ fext s';
  le_pts : forall i, pts s i ⊆ pts s' i }.
Record eqv (s s' : pos) : Prop := {
  eqv_static : static s s'; eqv_esc : fesc s' = fesc s; eqv_pe : fpe s' = fpe s; eqv_ext : fext s' = fext s;
  eqv_pts : forall i, pts s' i = pts s i }.
Lemma le_refl s : le s s.
Proof. split; auto using static_refl. Qed.
Lemma le_trans s1 s2 s3 : le s1 s2 -> le s2 s3 -> le s1 s3.
Proof. intros [] []. split; [eapply static_trans; eauto|etrans; eauto..|]. intros i. etrans; eauto. Qed.
Lemma eqv_refl s : eqv s s.
Proof. split; auto using static_refl. Qed.
Lemma eqv_trans s1 s2 s3 : eqv s1 s2 -> eqv s2 s3 -> eqv s1 s3.
Proof. intros [] []. split; [eapply static_trans; eauto|congruence..|]. intros i. etrans; eauto. Qed.
Lemma eqv_le s s' : eqv s s' -> le s s'.
Proof. intros [S E1 E2 E3 E4]. split; auto; try (rewrite ?E1, ?E2, ?E3; auto; fail). intros i. rewrite E4. auto. Qed.

(** the number of facts *)
Definition ptsum (n : nat) (f : nat -> gset nat) : nat := sum_list (map (fun i => size (f i)) (seq 0 n)).
Definition mu (s : pos) : nat := size (fesc s) + size (fpe s) + size (fext s) + ptsum (npo s) (pts s).

Lemma sum_le (l : list nat) f g : (forall i, i ∈ l -> f i <= g i) -> sum_list (map f l) <= sum_list (map g l).
Proof. induction l as [|a l IH]; cbn; intros H; auto. assert (f a <= g a) by (apply H; left). assert (sum_list (map f l) <= sum_list (map g l)); [|lia]. apply IH. intros. apply H. right. auto. Qed.
Lemma sum_lt (l : list nat) f g x : x ∈ l -> f x < g x -> (forall i, i ∈ l -> f i <= g i) -> sum_list (map f l) < sum_list (map g l).
Proof.
  induction l as [|a l IH]; cbn; intros Hx L H; [inversion Hx|].
  assert (f a <= g a) by (apply H; left).
  assert (Hr : forall i, i ∈ l -> f i <= g i) by (intros; apply H; right; auto).
  pose proof (sum_le l f g Hr). inversion Hx; subst; [lia|]. assert (sum_list (map f l) < sum_list (map g l)); [|lia]. auto.
Qed.
Lemma sum_bound (l : list nat) f b : (forall i, i ∈ l -> f i <= b) -> sum_list (map f l) <= length l * b.
Proof. induction l as [|a l IH]; cbn; intros H; auto. assert (f a <= b) by (apply H; left). assert (sum_list (map f l) <= length l * b); [|lia]. apply IH. intros. apply H. right; auto. Qed.
Lemma ptsum_mono n f g : (forall i, f i ⊆ g i) -> ptsum n f <= ptsum n g.
Proof. intros H. apply sum_le. intros i _. apply subseteq_size, H. Qed.
Lemma mu_le s s' : le s s' -> mu s <= mu s'.
Proof.
  intros [S H1 H2 H3 H4]. unfold mu. rewrite (st_npo _ _ S).
  pose proof (subseteq_size _ _ H1). pose proof (subseteq_size _ _ H2). pose proof (subseteq_size _ _ H3).
  pose proof (ptsum_mono (npo s) _ _ H4). lia.
Qed.
Lemma mu_eqv s s' : eqv s s' -> mu s' = mu s.
Proof.
  intros [S H1 H2 H3 H4]. unfold mu. rewrite (st_npo _ _ S), H1, H2, H3. f_equal.
  unfold ptsum. f_equal. apply map_ext. intros i. rewrite H4. auto.
Qed.
Lemma size_bound (X : gset nat) n : (forall i, i ∈ X -> i < n) -> size X <= n.
Proof.
  intros H. rewrite <- (size_set_seq (C := gset nat) 0 n). apply subseteq_size.
  intros i Hi. apply elem_of_set_seq. specialize (H i Hi). lia.
Qed.
Lemma mu_bound s : wf s -> mu s <= 3 * npo s + npo s * npo s.
Proof.
  intros W. unfold mu.
  assert (size (fesc s) <= npo s) by (apply size_bound; intros; apply (wf_flags s W); auto).
  assert (size (fpe s) <= npo s) by (apply size_bound; intros; apply (wf_flags s W); auto).
  assert (size (fext s) <= npo s) by (apply size_bound; intros; apply (wf_flags s W); auto).
  assert (ptsum (npo s) (pts s) <= npo s * npo s); [|lia].
  unfold ptsum. pose proof (sum_bound (seq 0 (npo s)) (fun i => size (pts s i)) (npo s)) as B.
  rewrite seq_length in B. apply B. intros i _. apply size_bound. intros y Hy. apply (wf_pts s W i y Hy).
Qed.

(** [wf] only depends on the facts *)
Lemma wf_eqv s s' : wf s -> eqv s s' -> wf s'.
Proof.
  intros W [S E1 E2 E3 E4]. pose proof (fun i => static_root s s' i S) as R. destruct S.
  split; intros i; rewrite ?E1, ?E2, ?E3, ?st_npo0, ?st_kind0, ?st_par0, ?st_rank0, ?st_sas0, ?st_las0, ?R; try apply W.
  - intros y. rewrite E4. apply W.
  - intros y. rewrite E4. apply W.
Qed.
Lemma eqv_bump s : eqv s (bump s).
Proof. split; auto. split; auto. Qed.

Section Ops.
  Context (ord : forall A : Type, nat -> list A -> list A) (ord_perm : forall A k (l : list A), ord A k l ≡ₚ l).
  Context (s0 : pos).

  (** the states reached from [s0] *)
  Definition W (s : pos) : Prop := wf s /\ static s0 s.

  Definition op_ok (m : op) : Prop := forall s s' b, W s -> m s = (s', b) ->
    W s' /\ le s s' /\ (b = false -> eqv s s') /\ (b = true -> mu s < mu s').
  (** what holds when [m] reports no change *)
  Definition est (m : op) (Q : pos -> Prop) : Prop := forall s s', W s -> m s = (s', false) -> Q s.
  (** [m] keeps [J] *)
  Definition keeps (J : pos -> Prop) (m : op) : Prop := forall s s' b, W s -> J s -> m s = (s', b) -> J s'.

  Lemma W_eqv s s' : W s -> eqv s s' -> W s'.
  Proof using. clear ord_perm ord. intros [H1 H2] E. split; [eapply wf_eqv; eauto|eapply static_trans; eauto; apply E]. Qed.
  Lemma W_bump s : W s -> W (bump s).
  Proof using. clear ord_perm ord. intros H. eapply W_eqv; eauto using eqv_bump. Qed.
  Lemma W_npo s : W s -> npo s = npo s0.
  Proof using. clear ord_perm ord. intros [_ []]. auto. Qed.
  Lemma W_kind s : W s -> kindof s = kindof s0.
  Proof using. clear ord_perm ord. intros [_ []]. auto. Qed.
  Lemma W_root s i : W s -> root s i = root s0 i.
  Proof using. clear ord_perm ord. intros [_ S]. apply static_root; auto. Qed.

  Lemma ok_nop : op_ok nop.
  Proof using. clear ord_perm ord. intros s s' b HW E. injection E as <- <-. split; [auto|split; [apply le_refl|split; [intros; apply eqv_refl|discriminate]]]. Qed.
  Lemma ok_seq m1 m2 : op_ok m1 -> op_ok m2 -> op_ok (m1 ;+ m2).
  Proof using. clear ord_perm ord.
    intros O1 O2 s s' b HW E. unfold seqop in E.
    destruct (m1 s) as [s1 b1] eqn:E1. destruct (m2 s1) as [s2 b2] eqn:E2. injection E as <- <-.
    destruct (O1 _ _ _ HW E1) as (W1 & L1 & F1 & T1). destruct (O2 _ _ _ W1 E2) as (W2 & L2 & F2 & T2).
    split; auto. split; [eapply le_trans; eauto|]. pose proof (mu_le _ _ L1). pose proof (mu_le _ _ L2).
    destruct b1, b2; cbn; (split; [intros; try discriminate|intros; try discriminate]).
    - specialize (T1 eq_refl). lia.
    - specialize (T1 eq_refl). lia.
    - specialize (T2 eq_refl). lia.
    - eapply eqv_trans; eauto.
  Qed.
  Lemma ok_for {A} (l : list A) f : (forall x, x ∈ l -> op_ok (f x)) -> op_ok (forop l f).
  Proof using. clear ord_perm ord.
    induction l as [|x l IH]; intros H; cbn [forop]; [apply ok_nop|]. apply ok_seq; [apply H; left|].
    apply IH. intros. apply H. right; auto.
  Qed.
  Lemma ok_if c m : op_ok m -> op_ok (ifop c m).
  Proof using. clear ord_perm ord. intros O s s' b HW E. unfold ifop in E. destruct (c s); [apply O; auto|apply ok_nop; auto]. Qed.
  Lemma ok_forset (C : nat -> Prop) S f : (forall s, W s -> forall x, x ∈ S s -> C x) ->
    (forall x, C x -> op_ok (f x)) -> op_ok (forset ord S f).
  Proof using ord_perm.
    intros HC Hf s s' b HW E. unfold forset in E.
    eassert (O : op_ok (forop (ord nat (tick s) (elements (S s))) f)).
    { apply ok_for. intros x Hx. apply Hf. apply (HC s HW). rewrite ord_perm in Hx. apply elem_of_elements in Hx. auto. }
    destruct (O _ _ _ (W_bump s HW) E) as (W' & L & F & T).
    split; auto. split; [eapply le_trans; [apply eqv_le, eqv_bump|auto]|]. split.
    - intros Hb. eapply eqv_trans; [apply eqv_bump|auto].
    - intros Hb. specialize (T Hb). rewrite (mu_eqv s (bump s)) in T; auto using eqv_bump.
  Qed.
  Lemma ok_forset_valid S f : (forall s, W s -> forall x, x ∈ S s -> x < npo s0 /\ kindof s0 x <> Register) ->
    (forall x, x < npo s0 -> kindof s0 x <> Register -> op_ok (f x)) -> op_ok (forset ord S f).
  Proof using ord_perm. intros H1 H2. apply (ok_forset (fun x => x < npo s0 /\ kindof s0 x <> Register)); auto. intros x []. auto. Qed.
  Lemma pset_valid p s : W s -> forall x, x ∈ pts s p -> x < npo s0 /\ kindof s0 x <> Register.
  Proof using. clear ord_perm ord. intros HW x Hx. rewrite <- (W_npo s HW), <- (W_kind s HW). eapply wf_pts; [apply HW|]. eauto. Qed.

  Lemma keeps_seq J m1 m2 : op_ok m1 -> keeps J m1 -> keeps J m2 -> keeps J (m1 ;+ m2).
  Proof using. clear ord_perm ord.
    intros O1 K1 K2 s s' b HW HJ E. unfold seqop in E.
    destruct (m1 s) as [s1 b1] eqn:E1. destruct (m2 s1) as [s2 b2] eqn:E2. injection E as <- <-.
    eapply (K2 s1); [eapply O1; eauto|eapply K1; eauto|eauto].
  Qed.
  Lemma keeps_nop J : keeps J nop.
  Proof using. clear ord_perm ord. intros s s' b HW HJ E. injection E as <- <-. auto. Qed.
  Lemma keeps_for {A} J (l : list A) f : (forall x, x ∈ l -> op_ok (f x)) -> (forall x, x ∈ l -> keeps J (f x)) -> keeps J (forop l f).
  Proof using. clear ord_perm ord.
    induction l as [|x l IH]; intros H K; cbn [forop]; [apply keeps_nop|]. apply keeps_seq; [apply H; left|apply K; left|].
    apply IH; intros; [apply H|apply K]; right; auto.
  Qed.
  Lemma keeps_if (J : pos -> Prop) c m : (forall s, W s -> J s -> c s = true -> forall s' b, m s = (s', b) -> J s') -> keeps J (ifop c m).
  Proof using. clear ord_perm ord. intros K s s' b HW HJ E. unfold ifop in E. destruct (c s) eqn:Ec; [eapply K; eauto|injection E as <- <-; auto]. Qed.
  Lemma keeps_forset (J : pos -> Prop) (C : nat -> Prop) S f : (forall s, J s -> J (bump s)) ->
    (forall s, W s -> J s -> forall x, x ∈ S s -> C x) ->
    (forall x, C x -> op_ok (f x)) -> (forall x, C x -> keeps J (f x)) -> keeps J (forset ord S f).
  Proof using ord_perm.
    intros HB HC Hf K s s' b HW HJ E. unfold forset in E.
    assert (HC' : forall x, x ∈ ord nat (tick s) (elements (S s)) -> C x).
    { intros x Hx. apply (HC s HW HJ). rewrite ord_perm in Hx. apply elem_of_elements in Hx. auto. }
    eapply (keeps_for J _ f); [| | |apply HB, HJ|exact E]; auto using W_bump.
  Qed.

  Definition invariant_Q (Q : pos -> Prop) : Prop := forall s s', eqv s s' -> Q s' -> Q s.
  Lemma est_seq m1 m2 Q1 Q2 : op_ok m1 -> op_ok m2 -> invariant_Q Q2 -> est m1 Q1 -> est m2 Q2 -> est (m1 ;+ m2) (fun s => Q1 s /\ Q2 s).
  Proof using. clear ord_perm ord.
    intros O1 O2 I E1 E2 s s' HW E. unfold seqop in E.
    destruct (m1 s) as [s1 b1] eqn:H1. destruct (m2 s1) as [s2 b2] eqn:H2. injection E as <- E.
    apply orb_false_iff in E as [-> ->]. split; [eapply E1; eauto|].
    destruct (O1 _ _ _ HW H1) as (W1 & _ & F & _). eapply I; [apply F; auto|]. eapply E2; eauto.
  Qed.
  Lemma est_for {A} (l : list A) f (Q : A -> pos -> Prop) : (forall x, x ∈ l -> op_ok (f x)) -> (forall x, invariant_Q (Q x)) ->
    (forall x, x ∈ l -> est (f x) (Q x)) -> est (forop l f) (fun s => forall x, x ∈ l -> Q x s).
  Proof using. clear ord_perm ord.
    intros O I H. induction l as [|x l IH]; [intros s s' _ _ x Hx; inversion Hx|]. cbn [forop].
    assert (Ol : op_ok (forop l f)) by (apply ok_for; intros; apply O; right; auto).
    intros s s' HW E.
    assert (K : Q x s /\ forall y, y ∈ l -> Q y s).
    { eapply (est_seq (f x) (forop l f) (Q x) (fun s => forall y, y ∈ l -> Q y s)); [| | | | |exact HW|exact E].
      - apply O; left.
      - exact Ol.
      - intros t t' Et Ht y Hy. apply (I y t t' Et). auto.
      - apply H; left.
      - apply IH; intros; [apply O|apply H]; right; auto. }
    destruct K as [K1 K2]. intros y Hy. apply elem_of_cons in Hy as [->|Hy]; auto.
  Qed.
  Lemma est_if c m Q : est m Q -> est (ifop c m) (fun s => c s = true -> Q s).
  Proof using. clear ord_perm ord. intros H s s' HW E Hc. unfold ifop in E. rewrite Hc in E. eapply H; eauto. Qed.
  Lemma est_forset S f (C : nat -> Prop) (Q : nat -> pos -> Prop) : (forall s, W s -> forall x, x ∈ S s -> C x) ->
    (forall x, C x -> op_ok (f x)) -> (forall x, invariant_Q (Q x)) -> (forall x, C x -> est (f x) (Q x)) ->
    est (forset ord S f) (fun s => forall x, x ∈ S s -> Q x s).
  Proof using ord_perm.
    intros HC O I H s s' HW E x Hx. unfold forset in E.
    assert (HC' : forall x, x ∈ ord nat (tick s) (elements (S s)) -> C x).
    { intros z Hz. apply (HC s HW). rewrite ord_perm in Hz. apply elem_of_elements in Hz. auto. }
    eapply I; [apply eqv_bump|]. eapply est_for; [| | | |exact E|]; auto using W_bump.
    rewrite ord_perm. apply elem_of_elements. auto.
  Qed.
  Lemma est_weaken m (Q Q' : pos -> Prop) : est m Q -> (forall s, W s -> Q s -> Q' s) -> est m Q'.
  Proof using. clear ord_perm ord. intros H H' s s' HW E. apply H'; auto. eapply H; eauto. Qed.

  (** ** the primitive operations *)
  Lemma ok_mark_pe i : i < npo s0 -> op_ok (mark_pe i).
  Proof using. clear ord_perm ord.
    intros Hi s s' b HW E. unfold mark_pe in E. destruct (decide _) as [d|d]; [injection E as <- <-; apply ok_nop; auto|].
    injection E as <- <-.
    assert (Hr : root s i < npo s) by (apply root_lt; [apply HW|rewrite (W_npo s HW); auto]).
    assert (S : static s (set_pe ({[root s i]} ∪ fpe s) s)) by (split; auto).
    split; [split; [|eapply static_trans; [apply HW|auto]]|split; [|split; [discriminate|]]].
    - destruct HW as [Wf _]. pose proof (fun j => static_root _ _ j S) as R. split; cbn [fesc fpe fext fsas flas pts kindof npo par rank set_pe]; try apply Wf.
      + intros j. rewrite elem_of_union, elem_of_singleton. pose proof (wf_flags s Wf j). assert (j = root s i -> j < npo s) by (intros ->; auto). tauto.
      + intros y Hy. rewrite R. apply elem_of_union_r. apply Wf; auto.
    - split; auto; cbn; set_solver.
    - intros _. unfold mu. cbn [fesc fpe fext pts npo set_pe]. rewrite size_union by set_solver. rewrite size_singleton. lia.
  Qed.
  Lemma ok_mark_ext i : i < npo s0 -> op_ok (mark_ext i).
  Proof using. clear ord_perm ord.
    intros Hi s s' b HW E. unfold mark_ext in E. destruct (decide _) as [d|d]; [injection E as <- <-; apply ok_nop; auto|].
    injection E as <- <-.
    assert (Hr : root s i < npo s) by (apply root_lt; [apply HW|rewrite (W_npo s HW); auto]).
    assert (S : static s (set_ext ({[root s i]} ∪ fext s) s)) by (split; auto).
    split; [split; [|eapply static_trans; [apply HW|auto]]|split; [|split; [discriminate|]]].
    - destruct HW as [Wf _]. pose proof (fun j => static_root _ _ j S) as R. split; cbn [fesc fpe fext fsas flas pts kindof npo par rank set_ext]; try apply Wf.
      + intros j. rewrite elem_of_union, elem_of_singleton. pose proof (wf_flags s Wf j). assert (j = root s i -> j < npo s) by (intros ->; auto). tauto.
      + intros y Hy. rewrite R. apply elem_of_union_r. apply Wf; auto.
    - split; auto; cbn; set_solver.
    - intros _. unfold mu. cbn [fesc fpe fext pts npo set_ext]. rewrite size_union by set_solver. rewrite size_singleton. lia.
  Qed.
  Lemma ok_add_pointee p y : p < npo s0 -> y < npo s0 -> kindof s0 y <> Register -> op_ok (add_pointee p y).
  Proof using. clear ord_perm ord.
    intros Hp Hy Hk s s' b HW E. unfold add_pointee in E. destruct (decide _) as [d|d]; [injection E as <- <-; apply ok_nop; auto|].
    injection E as <- <-.
    assert (Hr : root s p < npo s) by (apply root_lt; [apply HW|rewrite (W_npo s HW); auto]).
    set (s' := set_pts _ s). assert (S : static s s') by (split; auto).
    assert (P : forall j, pts s' j = if decide (j = root s p) then {[y]} ∪ pts s (root s p) else pts s j) by reflexivity.
    split; [split; [|eapply static_trans; [apply HW|auto]]|split; [|split; [discriminate|]]].
    - pose proof (W_npo s HW) as N. pose proof (W_kind s HW) as K. destruct HW as [Wf _]. pose proof (fun j => static_root _ _ j S) as R. split; try apply Wf.
      + intros j z. rewrite P. destruct (decide (j = root s p)) as [->|]; [auto|apply Wf].
      + intros j z. rewrite P. change (npo s') with (npo s). change (kindof s') with (kindof s).
        destruct (decide (j = root s p)) as [->|]; [|apply Wf].
        rewrite elem_of_union, elem_of_singleton. intros [->|]; [rewrite N, K; auto|eapply wf_pts; eauto].
    - split; auto. intros j. rewrite P. destruct (decide (j = root s p)) as [->|]; set_solver.
    - intros _. assert (H : ptsum (npo s) (pts s) < ptsum (npo s) (pts s')).
      2: { unfold mu. change (fesc s') with (fesc s). change (fpe s') with (fpe s). change (fext s') with (fext s). change (npo s') with (npo s). lia. }
      unfold ptsum. apply (sum_lt _ _ _ (root s p)); [apply elem_of_seq; lia| |].
      + rewrite P, decide_True by auto. rewrite size_union by set_solver. rewrite size_singleton. lia.
      + intros j _. rewrite P. apply subseteq_size. destruct (decide (j = root s p)) as [->|]; set_solver.
  Qed.
  Lemma mark_escaped_new y s : y ∉ fesc s -> let s1 := set_esc ({[y]} ∪ fesc s) s in
    mark_escaped y s = ((mark_ext y (mark_pe y s1).1).1, true).
  Proof using. clear ord_perm ord. intros. unfold mark_escaped. rewrite decide_False by auto. auto. Qed.
  (** the state after marking [y] as escaped *)
  Record escaped_state (s s' : pos) (y : nat) : Prop := {
    es_static : static s s'; es_esc : fesc s' = {[y]} ∪ fesc s; es_pe : fpe s' = {[root s y]} ∪ fpe s;
    es_ext : fext s' = {[root s y]} ∪ fext s; es_pts : pts s' = pts s }.
  Lemma mark_escaped_state y s s' : mark_escaped y s = (s', true) -> y ∉ fesc s /\ escaped_state s s' y.
  Proof using. clear ord_perm ord.
    intros E. unfold mark_escaped in E. destruct (decide _) as [d|d]; [discriminate|]. injection E as <-. split; auto.
    set (s1 := set_esc ({[y]} ∪ fesc s) s).
    assert (R1 : root s1 y = root s y) by reflexivity.
    unfold mark_pe. rewrite R1. change (fpe s1) with (fpe s).
    destruct (decide (root s y ∈ fpe s)) as [dp|dp]; cbn [fst].
    - unfold mark_ext. rewrite R1. change (fext s1) with (fext s).
      destruct (decide (root s y ∈ fext s)) as [de|de]; cbn [fst]; (split; [split; reflexivity|..]; cbn; try reflexivity; set_solver).
    - unfold mark_ext. set (s2 := set_pe _ s1). assert (R2 : root s2 y = root s y) by reflexivity. rewrite R2. change (fext s2) with (fext s).
      destruct (decide (root s y ∈ fext s)) as [de|de]; cbn [fst]; (split; [split; reflexivity|..]; cbn; try reflexivity; set_solver).
  Qed.
  Lemma ok_mark_escaped y : y < npo s0 -> kindof s0 y <> Register -> op_ok (mark_escaped y).
  Proof using. clear ord_perm ord.
    intros Hy Hk s s' b HW E. destruct b.
    2: { unfold mark_escaped in E. destruct (decide _) as [d|d]; [|discriminate]. injection E as <-. apply ok_nop; auto. }
    destruct (mark_escaped_state _ _ _ E) as [d [S E1 E2 E3 E4]].
    assert (Hr : root s y < npo s) by (apply root_lt; [apply HW|rewrite (W_npo s HW); auto]).
    split; [split; [|eapply static_trans; [apply HW|auto]]|split; [|split; [discriminate|]]].
    - pose proof (W_npo s HW) as N. pose proof (W_kind s HW) as K. destruct HW as [Wf _]. pose proof (fun j => static_root _ _ j S) as R.
      destruct S. split; rewrite ?st_npo0, ?st_kind0, ?st_par0, ?st_rank0, ?E1, ?E2, ?E3, ?E4, ?st_sas0, ?st_las0; try apply Wf.
      + intros j. rewrite !elem_of_union, !elem_of_singleton. pose proof (wf_flags s Wf j).
        assert (j = y -> j < npo s) by (intros ->; lia). assert (j = root s y -> j < npo s) by (intros ->; lia). tauto.
      + intros z. rewrite elem_of_union, elem_of_singleton. intros [->|]; [rewrite K; auto|apply Wf; auto].
      + intros z. rewrite R, !elem_of_union, !elem_of_singleton. intros [->|]; [auto|right; apply Wf; auto].
      + intros z. rewrite R, !elem_of_union, !elem_of_singleton. intros [->|]; [auto|right; apply Wf; auto].
    - split; auto; rewrite ?E1, ?E2, ?E3, ?E4; set_solver.
    - intros _. unfold mu. rewrite (st_npo _ _ S), E1, E2, E3, E4.
      rewrite size_union by set_solver. rewrite size_singleton.
      assert (size (fpe s) <= size ({[root s y]} ∪ fpe s)) by (apply subseteq_size; set_solver).
      assert (size (fext s) <= size ({[root s y]} ∪ fext s)) by (apply subseteq_size; set_solver). lia.
  Qed.

  (** ** what the primitives establish *)
  Lemma est_mark_pe i : est (mark_pe i) (fun s => root s i ∈ fpe s).
  Proof using. clear ord_perm ord. intros s s' HW E. unfold mark_pe in E. destruct (decide _); [auto|discriminate]. Qed.
  Lemma est_mark_ext i : est (mark_ext i) (fun s => root s i ∈ fext s).
  Proof using. clear ord_perm ord. intros s s' HW E. unfold mark_ext in E. destruct (decide _); [auto|discriminate]. Qed.
  Lemma est_add_pointee p y : est (add_pointee p y) (fun s => y ∈ pset s p).
  Proof using. clear ord_perm ord. intros s s' HW E. unfold add_pointee in E. destruct (decide _); [auto|discriminate]. Qed.
  Lemma est_mark_escaped y : est (mark_escaped y) (fun s => y ∈ fesc s).
  Proof using. clear ord_perm ord. intros s s' HW E. unfold mark_escaped in E. destruct (decide _); [auto|discriminate]. Qed.

  Lemma inv_pe i : invariant_Q (fun s => root s i ∈ fpe s).
  Proof using. clear ord_perm ord. intros s s' [S E1 E2 E3 E4]. rewrite E2, (static_root _ _ _ S). auto. Qed.
  Lemma inv_ext i : invariant_Q (fun s => root s i ∈ fext s).
  Proof using. clear ord_perm ord. intros s s' [S E1 E2 E3 E4]. rewrite E3, (static_root _ _ _ S). auto. Qed.
  Lemma inv_pt p y : invariant_Q (fun s => y ∈ pset s p).
  Proof using. clear ord_perm ord. intros s s' [S E1 E2 E3 E4]. unfold pset. rewrite E4, (static_root _ _ _ S). auto. Qed.
  Lemma inv_esc y : invariant_Q (fun s => y ∈ fesc s).
  Proof using. clear ord_perm ord. intros s s' [S E1 E2 E3 E4]. rewrite E1. auto. Qed.

  (** P(a) includes P(b), explicitly *)
  Definition incl (s : pos) (a b : nat) : Prop :=
    (forall y, y ∈ pset s b -> y ∈ pset s a) /\ (root s b ∈ fext s -> root s a ∈ fext s).
  Lemma inv_incl a b : invariant_Q (fun s => incl s a b).
  Proof using. clear ord_perm ord.
    intros s s' E [H1 H2]. split.
    - intros y Hy. apply (inv_pt a y s s' E). apply H1. destruct E as [S E1 E2 E3 E4]. unfold pset in *. rewrite E4, (static_root _ _ _ S). auto.
    - intros Hx. apply (inv_ext a s s' E). apply H2. destruct E as [S E1 E2 E3 E4]. rewrite E3, (static_root _ _ _ S). auto.
  Qed.

  Lemma make_superset_eq a b s : W s -> make_superset ord a b s =
    if decide (root s0 a = root s0 b) then (s, false) else
    (forset ord (fun s => pts s (root s0 b)) (add_pointee (root s0 a)) ;+ ifop (fun s => is_ext s (root s0 b)) (mark_ext (root s0 a))) s.
  Proof using. intros HW. unfold make_superset. rewrite !(W_root s _ HW). auto. Qed.
  Lemma root0_lt i s : W s -> i < npo s0 -> root s0 i < npo s0.
  Proof using. clear ord_perm ord. intros HW Hi. rewrite <- (W_root s i HW). rewrite <- (W_npo s HW). apply root_lt; [apply HW|]. rewrite (W_npo s HW). auto. Qed.
  Lemma root0_root i s : W s -> i < npo s0 -> root s0 (root s0 i) = root s0 i.
  Proof using. clear ord_perm ord. intros HW Hi. rewrite <- !(W_root s _ HW). apply root_root; [apply HW|]. rewrite (W_npo s HW). auto. Qed.
  Lemma ok_make_superset a b : a < npo s0 -> b < npo s0 -> op_ok (make_superset ord a b).
  Proof using ord_perm.
    intros Ha Hb s s' r HW E. rewrite make_superset_eq in E by auto.
    destruct (decide _); [eapply ok_nop; eauto|].
    assert (Hra : root s0 a < npo s0) by (eapply root0_lt; eauto).
    revert E. apply ok_seq; auto.
    - apply ok_forset_valid; [intros; eapply pset_valid; eauto|]. intros x Hx Hk. apply ok_add_pointee; auto.
    - apply ok_if, ok_mark_ext; auto.
  Qed.
  Lemma est_make_superset a b : a < npo s0 -> b < npo s0 -> est (make_superset ord a b) (fun s => incl s a b).
  Proof using ord_perm.
    intros Ha Hb s s' HW E. rewrite make_superset_eq in E by auto.
    destruct (decide _) as [e|ne].
    { unfold incl, pset. rewrite !(W_root s _ HW), e. auto. }
    assert (Hra : root s0 a < npo s0) by (eapply root0_lt; eauto).
    pose proof (root0_root a s HW Ha) as RRa. pose proof (root0_root b s HW Hb) as RRb.
    eassert (H : _ /\ _).
    { eapply (est_seq _ _ (fun s => forall y, y ∈ pts s (root s0 b) -> y ∈ pset s (root s0 a))
               (fun s => is_ext s (root s0 b) = true -> root s (root s0 a) ∈ fext s)); [| | | | |exact HW|exact E].
      - apply ok_forset_valid; [intros; eapply pset_valid; eauto|]. intros x Hx Hk. apply ok_add_pointee; auto.
      - apply ok_if, ok_mark_ext; auto.
      - intros t t' Et Ht Hx. apply (inv_ext (root s0 a) t t' Et). apply Ht. unfold is_ext in *. rewrite bool_decide_eq_true in *.
        destruct Et as [S E1 E2 E3 E4]. rewrite E3, (static_root _ _ _ S). auto.
      - apply (est_forset _ _ (fun x => x < npo s0 /\ kindof s0 x <> Register) (fun y s => y ∈ pset s (root s0 a))).
        + intros; eapply pset_valid; eauto.
        + intros x []. apply ok_add_pointee; auto.
        + intros x. apply inv_pt.
        + intros x _. apply est_add_pointee.
      - apply est_if, est_mark_ext. }
    destruct H as [H1 H2]. unfold incl, pset in *. unfold is_ext in H2. rewrite !(W_root s _ HW) in *. rewrite RRa, RRb in *.
    split; auto. intros Hx. apply H2. apply bool_decide_eq_true. auto.
  Qed.
End Ops.
