From stdpp Require Import gmap list.
From Coq Require Import Lia NArith Sorted.
From Verif.Worklist Require Import Model Spec.

Section spec_facts.
  Context {T : Type} `{EqDecision T}.
  Implicit Types (tr : list (event T)) (x y : T).

  Lemma pending_list_snoc tr e : pending_list (tr ++ [e]) = pending_step (pending_list tr) e.
  Proof. unfold pending_list. by rewrite fold_left_app. Qed.

  Lemma pending_list_new tr x :
    x ∉ pending_list tr → pending_list (tr ++ [Pushed x]) = pending_list tr ++ [x].
  Proof. intros. rewrite pending_list_snoc. simpl. by rewrite decide_False. Qed.
  Lemma pending_list_old tr x :
    x ∈ pending_list tr → pending_list (tr ++ [Pushed x]) = pending_list tr.
  Proof. intros. rewrite pending_list_snoc. simpl. by rewrite decide_True. Qed.

  Lemma pending_list_NoDup tr : NoDup (pending_list tr).
  Proof.
    induction tr as [|e tr IH] using rev_ind; [constructor|].
    rewrite pending_list_snoc. destruct e as [x|x]; simpl.
    - destruct (decide (x ∈ pending_list tr)); [done|]. apply NoDup_app. split_and!; [done| |].
      + intros y Hy Hx. apply elem_of_list_singleton in Hx as ->. done.
      + apply NoDup_singleton.
    - by apply NoDup_filter.
  Qed.

  Lemma pending_snoc_push tr x y :
    pending (tr ++ [Pushed x]) y ↔ pending tr y ∨ y = x.
  Proof.
    split.
    - intros (tr1 & tr2 & He & Hn).
      destruct tr2 as [|e tr2 _] using rev_ind.
      + apply app_inj_tail in He as [_ He]. right. congruence.
      + rewrite app_comm_cons, app_assoc in He. apply app_inj_tail in He as [He _].
        left. exists tr1, tr2. split; [done|]. intros Hx. apply Hn. apply elem_of_app. by left.
    - intros [(tr1 & tr2 & -> & Hn)| ->].
      + exists tr1, (tr2 ++ [Pushed x]). split; [by rewrite <- app_assoc|].
        rewrite elem_of_app, elem_of_list_singleton. intros [?|?]; [done|congruence].
      + exists tr, []. split; [done|]. apply not_elem_of_nil.
  Qed.

  Lemma pending_snoc_pop tr x y :
    pending (tr ++ [Popped x]) y ↔ pending tr y ∧ y ≠ x.
  Proof.
    split.
    - intros (tr1 & tr2 & He & Hn).
      destruct tr2 as [|e tr2 _] using rev_ind.
      + apply app_inj_tail in He as [_ He]. congruence.
      + rewrite app_comm_cons, app_assoc in He. apply app_inj_tail in He as [He <-].
        rewrite elem_of_app, elem_of_list_singleton in Hn. split.
        * exists tr1, tr2. split; [done|]. tauto.
        * intros ->. tauto.
    - intros [(tr1 & tr2 & -> & Hn) Hne].
      exists tr1, (tr2 ++ [Popped x]). split; [by rewrite <- app_assoc|].
      rewrite elem_of_app, elem_of_list_singleton. intros [?|?]; [done|congruence].
  Qed.

  Lemma elem_pending_list tr x : x ∈ pending_list tr ↔ pending tr x.
  Proof.
    induction tr as [|e tr IH] using rev_ind.
    - split; [intros Hx; inversion Hx|]. intros (tr1 & tr2 & He & _).
      symmetry in He. by apply app_eq_nil in He as [_ ?].
    - rewrite pending_list_snoc. destruct e as [y|y]; simpl.
      + rewrite pending_snoc_push, <- IH. destruct (decide (y ∈ pending_list tr)).
        * split; [by left|]. by intros [?| ->].
        * rewrite elem_of_app, elem_of_list_singleton. done.
      + rewrite pending_snoc_pop, elem_of_list_filter, <- IH. tauto.
  Qed.

  Lemma pops_snoc tr e :
    pops (tr ++ [e]) = pops tr ++ match e with Popped x => [x] | _ => [] end.
  Proof. unfold pops. rewrite omap_app. by destruct e. Qed.

  Lemma last_pop_aux (l : list T) x :
    (fold_left (λ '(n, r) y, (S n, if decide (y = x) then S n else r)) l (0, 0)).1 = length l.
  Proof.
    induction l as [|y l IH] using rev_ind; [done|].
    rewrite fold_left_app, app_length. simpl.
    destruct (fold_left _ l _) as [n r]; simpl in *. lia.
  Qed.

  Lemma last_pop_push tr x y : last_pop (tr ++ [Pushed x]) y = last_pop tr y.
  Proof. unfold last_pop. rewrite pops_snoc. by rewrite app_nil_r. Qed.
  Lemma last_pop_pop tr x y :
    last_pop (tr ++ [Popped x]) y = if decide (x = y) then S (length (pops tr)) else last_pop tr y.
  Proof.
    unfold last_pop. rewrite pops_snoc, fold_left_app. simpl.
    pose proof (last_pop_aux (pops tr) y) as Hn.
    destruct (fold_left _ (pops tr) _) as [n r]; simpl in *. by rewrite Hn.
  Qed.
  Lemma last_pop_le tr x : last_pop tr x ≤ length (pops tr).
  Proof.
    induction tr as [|e tr IH] using rev_ind; [done|].
    destruct e as [y|y].
    - rewrite last_pop_push, pops_snoc, app_nil_r. done.
    - rewrite last_pop_pop, pops_snoc, app_length. simpl. destruct (decide (y = x)); lia.
  Qed.
  Lemma pops_length tr : length (pops tr) ≤ length tr.
  Proof.
    induction tr as [|e tr IH] using rev_ind; [done|].
    rewrite pops_snoc, !app_length. destruct e; simpl; lia.
  Qed.

  Lemma batch_snd tr : (fold_left batch_step tr ([], [])).2 = tr.
  Proof.
    induction tr as [|e tr IH] using rev_ind; [done|].
    rewrite fold_left_app. simpl. destruct (fold_left _ tr _) as [b t]; simpl in *.
    subst. destruct e; done.
  Qed.
  Lemma batch_push tr x : batch (tr ++ [Pushed x]) = batch tr.
  Proof.
    unfold batch. rewrite fold_left_app. simpl. by destruct (fold_left _ tr _) as [b t].
  Qed.
  Lemma batch_pop tr x : batch (tr ++ [Popped x]) = filter (λ y, y ≠ x) (current_batch tr).
  Proof.
    unfold current_batch, batch. rewrite fold_left_app. simpl.
    pose proof (batch_snd tr) as Hs.
    destruct (fold_left _ tr _) as [b t]; simpl in *. subst. by destruct b.
  Qed.
End spec_facts.

(** A worklist together with an invariant relating it to the trace. *)
Section generic.
  Context {T : Type} `{EqDecision T}.
  Variable W : worklist T.
  Variable choice : list (event T) → T → Prop.
  Variable bound : list (event T) → Prop.
  Hypothesis bound_prefix : ∀ tr e, bound (tr ++ [e]) → bound tr.
  Variable Inv : state W → list (event T) → Prop.

  Record correct : Prop := {
    c_init : Inv (init W) [];
    c_push : ∀ s tr x, Inv s tr → bound tr →
               Inv (PushWorkItem W s x) (tr ++ [Pushed x]) ∧
               (pending tr x → PushWorkItem W s x = s);
    c_has : ∀ s tr, Inv s tr → (HasMoreWorkItems W s = true ↔ pending_list tr ≠ []);
    c_pop : ∀ s tr, Inv s tr → bound tr →
              match PopWorkItem W s with
              | None => pending_list tr = []
              | Some (x, s') => choice tr x ∧ pending tr x ∧ Inv s' (tr ++ [Popped x])
              end
  }.

  Lemma obeys_snoc (P : list (event T) → T → Prop) tr e :
    obeys P tr → (∀ x, e = Popped x → P tr x) → obeys P (tr ++ [e]).
  Proof.
    intros Ho He tr1 x tr2 Heq.
    destruct tr2 as [|e' tr2 _] using rev_ind.
    - apply app_inj_tail in Heq as [-> ->]. by apply He.
    - rewrite app_comm_cons, app_assoc in Heq. apply app_inj_tail in Heq as [-> _].
      by eapply Ho.
  Qed.

  Lemma run_snoc st ops o :
    run W st (ops ++ [o]) = match run W st ops with Some st' => step W st' o | None => None end.
  Proof.
    revert st. induction ops as [|o' ops IH]; intros st; simpl.
    - destruct (step W st o); done.
    - destruct (step W st o'); [apply IH|done].
  Qed.

  Lemma run_correct ops s tr :
    correct → run W (init W, []) ops = Some (s, tr) → bound tr →
    length tr = length ops ∧ answers W choice s tr.
  Proof.
    intros HC Hrun Hb.
    assert (length tr = length ops ∧ Inv s tr ∧ obeys choice tr ∧ obeys pending tr)
      as (Hlen & HI & Hoc & Hop).
    { revert s tr Hrun Hb. induction ops as [|o ops IH] using rev_ind; intros s tr Hrun Hb.
      - simpl in Hrun. simplify_eq. split_and!; [done|apply HC| |];
          intros tr1 x tr2 He; symmetry in He; by apply app_eq_nil in He as [_ ?].
      - rewrite run_snoc in Hrun.
        destruct (run W (init W, []) ops) as [[s0 tr0]|] eqn:E; [|done].
        destruct o as [x|]; simpl in Hrun.
        + simplify_eq. pose proof (bound_prefix _ _ Hb) as Hb0.
          destruct (IH s0 tr0) as (Hl & HI & Hc & Hp); [done|done|].
          destruct (c_push HC s0 tr0 x HI Hb0) as [HI' _].
          split_and!; [rewrite !app_length; simpl; lia|done| |]; by apply obeys_snoc.
        + destruct (PopWorkItem W s0) as [[x s']|] eqn:Ep; simplify_eq.
          pose proof (bound_prefix _ _ Hb) as Hb0.
          destruct (IH s0 tr0) as (Hl & HI & Hc & Hp); [done|done|].
          pose proof (c_pop HC s0 tr0 HI Hb0) as Hpop. rewrite Ep in Hpop.
          destruct Hpop as (Hch & Hpe & HI').
          split_and!; [rewrite !app_length; simpl; lia|done| |]; apply obeys_snoc; try done;
            intros y Hy; by simplify_eq. }
    assert (HasMoreWorkItems W s = true ↔ ∃ x, pending tr x) as Hhas.
    { rewrite (c_has HC s tr HI). split.
      - intros Hn. destruct (pending_list tr) as [|x l] eqn:E; [done|].
        exists x. apply elem_pending_list. rewrite E. apply elem_of_list_here.
      - intros [x Hx] He. apply elem_pending_list in Hx. rewrite He in Hx. inversion Hx. }
    split; [done|]. split_and!; try done.
    - intros x. by apply (c_push HC s tr x).
    - pose proof (c_pop HC s tr HI Hb) as Hpop.
      destruct (PopWorkItem W s) as [[x s']|].
      + destruct Hpop as (_ & Hp & _). split; [done|]. intros Hf.
        assert (HasMoreWorkItems W s = true) by (apply Hhas; eauto). congruence.
      + split; [|done]. intros _. destruct (HasMoreWorkItems W s) eqn:Eh; [|done].
        exfalso. pose proof (c_has HC s tr HI) as [Hh _]. by apply Hh.
  Qed.
End generic.

Section simple.
  Context {T : Type} `{Countable T}.
  Implicit Types (tr : list (event T)).

  Definition lifo_inv (s : simple T) tr : Prop :=
    workItems s = reverse (pending_list tr) ∧ ∀ x, x ∈ onList s ↔ x ∈ pending_list tr.
  Definition fifo_inv (s : simple T) tr : Prop :=
    workItems s = pending_list tr ∧ ∀ x, x ∈ onList s ↔ x ∈ pending_list tr.

  Lemma filter_ne_id (l : list T) x : x ∉ l → filter (λ y, y ≠ x) l = l.
  Proof.
    induction l as [|y l IH]; intros Hx; [done|]. apply not_elem_of_cons in Hx as [Hne Hx].
    rewrite filter_cons_True by congruence. by rewrite IH.
  Qed.

  Lemma lifo_correct : correct LifoWorklist lifo_choice (λ _, True) lifo_inv.
  Proof.
    split.
    - split; [done|]. intros x. simpl. split; [intros Hx; set_solver|intros Hx; inversion Hx].
    - intros s tr x [Hw Ho] _. simpl. unfold lifo_push. rewrite <- elem_pending_list. split.
      + unfold lifo_inv. rewrite pending_list_snoc. simpl.
        destruct (decide (x ∈ onList s)) as [Hx|Hx].
        * apply Ho in Hx as Hx'. rewrite decide_True by done. done.
        * assert (x ∉ pending_list tr) by (by rewrite <- Ho). rewrite decide_False by done.
          simpl. rewrite reverse_snoc, Hw. split; [done|]. intros y.
          rewrite elem_of_union, elem_of_singleton, elem_of_app, elem_of_list_singleton, Ho. tauto.
      + intros Hx. apply Ho in Hx. by rewrite decide_True.
    - intros s tr [Hw Ho]. simpl. unfold simple_has. rewrite Hw.
      destruct (reverse (pending_list tr)) eqn:E.
      + split; [done|]. intros Hn. exfalso. apply Hn. by apply (f_equal reverse) in E; rewrite reverse_involutive in E.
      + split; [|done]. intros _ He. by rewrite He in E.
    - intros s tr [Hw Ho] _. simpl. unfold simple_pop. rewrite Hw.
      destruct (reverse (pending_list tr)) as [|x l] eqn:E.
      { by apply (f_equal reverse) in E; rewrite reverse_involutive in E. }
      apply (f_equal reverse) in E. rewrite reverse_involutive, reverse_cons in E.
      pose proof (pending_list_NoDup tr) as Hnd. rewrite E in Hnd.
      apply NoDup_app in Hnd as (Hnd & Hx & _).
      assert (x ∉ reverse l) as Hxl.
      { intros Hin. apply (Hx x Hin). by apply elem_of_list_singleton. }
      assert (pending_list (tr ++ [Popped x]) = reverse l) as Hpl.
      { rewrite pending_list_snoc, E. simpl. rewrite filter_app, filter_ne_id by done.
        rewrite filter_cons_False by (intros Hn; by apply Hn). by rewrite filter_nil, app_nil_r. }
      split_and!.
      + unfold lifo_choice. by rewrite E, last_snoc.
      + apply elem_pending_list. rewrite E. apply elem_of_app. right. by apply elem_of_list_singleton.
      + split; simpl; rewrite Hpl; [by rewrite reverse_involutive|]. intros y.
        rewrite elem_of_difference, elem_of_singleton, Ho, E, elem_of_app, elem_of_list_singleton.
        split; [tauto|]. intros Hy. split; [by left|]. intros ->. done.
  Qed.

  Lemma fifo_correct : correct FifoWorklist fifo_choice (λ _, True) fifo_inv.
  Proof.
    split.
    - split; [done|]. intros x. simpl. split; [intros Hx; set_solver|intros Hx; inversion Hx].
    - intros s tr x [Hw Ho] _. simpl. unfold fifo_push. rewrite <- elem_pending_list. split.
      + unfold fifo_inv. rewrite pending_list_snoc. simpl.
        destruct (decide (x ∈ onList s)) as [Hx|Hx].
        * apply Ho in Hx as Hx'. rewrite decide_True by done. done.
        * assert (x ∉ pending_list tr) by (by rewrite <- Ho). rewrite decide_False by done.
          simpl. rewrite Hw. split; [done|]. intros y.
          rewrite elem_of_union, elem_of_singleton, elem_of_app, elem_of_list_singleton, Ho. tauto.
      + intros Hx. apply Ho in Hx. by rewrite decide_True.
    - intros s tr [Hw Ho]. simpl. unfold simple_has. rewrite Hw.
      destruct (pending_list tr); done.
    - intros s tr [Hw Ho] _. simpl. unfold simple_pop. rewrite Hw.
      destruct (pending_list tr) as [|x l] eqn:E; [done|].
      pose proof (pending_list_NoDup tr) as Hnd. rewrite E in Hnd.
      apply NoDup_cons in Hnd as (Hxl & Hnd).
      assert (pending_list (tr ++ [Popped x]) = l) as Hpl.
      { rewrite pending_list_snoc, E. simpl.
        rewrite filter_cons_False by (intros Hn; by apply Hn). by rewrite filter_ne_id. }
      split_and!.
      + unfold fifo_choice. by rewrite E.
      + apply elem_pending_list. rewrite E. apply elem_of_list_here.
      + split; simpl; rewrite Hpl; [done|]. intros y.
        rewrite elem_of_difference, elem_of_singleton, Ho, elem_of_cons.
        split; [tauto|]. intros Hy. split; [by right|]. intros ->. done.
  Qed.
End simple.

Section lrf.
  Context {T : Type} `{Countable T}.
  Variable ltT : T → T → bool.
  Implicit Types (tr : list (event T)).

  Definition stamp tr (x : T) : N * T := (N.of_nat (last_pop tr x), x).
  Definition fire_ok (c : N) (m : gmap T N) tr : Prop :=
    c = N.of_nat (length (pops tr)) ∧
    ∀ x, fire_of m x = if decide (x ∈ pending_list tr) then sentinel else N.of_nat (last_pop tr x).
  Definition small tr : Prop := (N.of_nat (length tr) < sentinel)%N.

  Lemma last_pop_small tr x : small tr → N.of_nat (last_pop tr x) ≠ sentinel.
  Proof.
    unfold small. pose proof (last_pop_le tr x). pose proof (pops_length tr). lia.
  Qed.

  Lemma pair_lt_fst (a b : N * T) : pair_lt ltT a b = true → (a.1 ≤ b.1)%N.
  Proof.
    unfold pair_lt. rewrite orb_true_iff, andb_true_iff, negb_true_iff, N.ltb_lt, N.ltb_ge. lia.
  Qed.
  Lemma pair_lt_fst' (a b : N * T) : pair_lt ltT a b = false → (b.1 ≤ a.1)%N.
  Proof.
    unfold pair_lt. rewrite orb_false_iff, N.ltb_ge. tauto.
  Qed.

  Lemma min_pair_spec best (l : list (N * T)) :
    min_pair ltT best l ∈ best :: l ∧ ∀ e, e ∈ best :: l → ((min_pair ltT best l).1 ≤ e.1)%N.
  Proof.
    revert best. induction l as [|e l IH]; intros best; cbn [min_pair].
    - split; [apply elem_of_list_here|]. intros e' He. apply elem_of_list_singleton in He as ->. done.
    - destruct (IH (if pair_lt ltT e best then e else best)) as [Hin Hle]. split.
      + apply elem_of_cons in Hin as [Hin|Hin].
        * rewrite Hin. destruct (pair_lt ltT e best); rewrite !elem_of_cons; auto.
        * rewrite !elem_of_cons. auto.
      + assert (((min_pair ltT (if pair_lt ltT e best then e else best) l).1
                 ≤ (if pair_lt ltT e best then e else best).1)%N) as Hm.
        { apply Hle, elem_of_list_here. }
        intros e' He. rewrite !elem_of_cons in He. destruct He as [-> | [-> |He]].
        * destruct (pair_lt ltT e best) eqn:E; [apply pair_lt_fst in E; lia|done].
        * destruct (pair_lt ltT e best) eqn:E; [done|apply pair_lt_fst' in E; lia].
        * apply Hle. apply elem_of_cons. by right.
  Qed.

  Lemma remove_one_perm (e : N * T) l : e ∈ l → l ≡ₚ e :: remove_one e l.
  Proof.
    induction l as [|e' l IH]; intros He; [inversion He|]. simpl.
    destruct (decide (e' = e)) as [->|Hne]; [done|].
    apply elem_of_cons in He as [?|He]; [congruence|].
    rewrite (IH He) at 1. constructor.
  Qed.

  Lemma stamp_push tr x y : stamp (tr ++ [Pushed x]) y = stamp tr y.
  Proof. unfold stamp. by rewrite last_pop_push. Qed.
  Lemma stamp_pop tr x y : y ≠ x → stamp (tr ++ [Popped x]) y = stamp tr y.
  Proof. intros. unfold stamp. rewrite last_pop_pop, decide_False; congruence. Qed.

  Lemma fire_ok_push c m tr x :
    fire_ok c m tr → x ∉ pending_list tr → fire_ok c (<[x := sentinel]> m) (tr ++ [Pushed x]).
  Proof.
    intros [Hc Hm] Hx. split; [by rewrite pops_snoc, app_nil_r|].
    intros y. rewrite pending_list_new, last_pop_push by done.
    unfold fire_of in *. destruct (decide (y = x)) as [->|Hne].
    - rewrite lookup_insert. simpl. rewrite decide_True; [done|].
      apply elem_of_app. right. by apply elem_of_list_singleton.
    - rewrite lookup_insert_ne by done. rewrite Hm.
      destruct (decide (y ∈ pending_list tr)) as [Hy|Hy].
      + rewrite decide_True; [done|]. apply elem_of_app. by left.
      + rewrite decide_False; [done|]. rewrite elem_of_app, elem_of_list_singleton. tauto.
  Qed.
  Lemma fire_ok_push_same c m tr x :
    fire_ok c m tr → x ∈ pending_list tr → fire_ok c m (tr ++ [Pushed x]).
  Proof.
    intros [Hc Hm] Hx. split; [by rewrite pops_snoc, app_nil_r|].
    intros y. rewrite pending_list_old, last_pop_push by done. apply Hm.
  Qed.
  Lemma fire_ok_pop c m tr x :
    fire_ok c m tr → small tr →
    fire_ok (incr64 c) (<[x := incr64 c]> m) (tr ++ [Popped x]).
  Proof.
    intros [Hc Hm] Hs.
    assert (incr64 c = N.of_nat (S (length (pops tr)))) as Hi.
    { unfold incr64. rewrite Hc. unfold small, sentinel in Hs. pose proof (pops_length tr).
      rewrite N.mod_small; [lia|]. lia. }
    split; [rewrite pops_snoc, app_length, Hi; simpl; lia|].
    intros y. rewrite pending_list_snoc, last_pop_pop. simpl. unfold fire_of in *.
    destruct (decide (x = y)) as [->|Hne].
    - rewrite lookup_insert. simpl. rewrite decide_False; [done|].
      rewrite elem_of_list_filter. tauto.
    - rewrite lookup_insert_ne by done. rewrite Hm.
      destruct (decide (y ∈ pending_list tr)) as [Hy|Hy].
      + rewrite decide_True; [done|]. apply elem_of_list_filter. split; [congruence|done].
      + rewrite decide_False; [done|]. rewrite elem_of_list_filter. tauto.
  Qed.

  Definition lrf_inv (s : lrf T) tr : Prop :=
    queue s ≡ₚ map (stamp tr) (pending_list tr) ∧ fire_ok (counter s) (lastFire s) tr.

  Lemma fire_pending c m tr x :
    fire_ok c m tr → small tr → (fire_of m x = sentinel ↔ x ∈ pending_list tr).
  Proof.
    intros [_ Hm] Hs. rewrite Hm. destruct (decide (x ∈ pending_list tr)) as [Hx|Hx]; [done|].
    split; [|done]. intros He. by apply last_pop_small in He.
  Qed.

  Lemma perm_remove (tr : list (event T)) x :
    x ∈ pending_list tr → pending_list tr ≡ₚ x :: filter (λ y, y ≠ x) (pending_list tr).
  Proof.
    intros Hx. pose proof (pending_list_NoDup tr) as Hnd. apply NoDup_Permutation; [done| |].
    - apply NoDup_cons. split; [rewrite elem_of_list_filter; tauto|]. by apply NoDup_filter.
    - intros y. rewrite elem_of_cons, elem_of_list_filter. destruct (decide (y = x)); naive_solver.
  Qed.

  Lemma map_stamp_filter tr x (l : list T) :
    map (stamp (tr ++ [Popped x])) (filter (λ y, y ≠ x) l) = map (stamp tr) (filter (λ y, y ≠ x) l).
  Proof.
    induction l as [|y l IH]; [done|]. destruct (decide (y = x)) as [->|Hne].
    - rewrite filter_cons_False by tauto. done.
    - rewrite filter_cons_True by done. simpl. rewrite IH, stamp_pop by done. done.
  Qed.

  Lemma lrf_correct : correct (LrfWorklist ltT) lrf_choice small lrf_inv.
  Proof.
    split.
    - split; [done|]. split; [done|]. intros x. unfold fire_of. simpl. by rewrite lookup_empty.
    - intros s tr x [Hq Hf] Hs. simpl. unfold lrf_push. rewrite <- elem_pending_list.
      pose proof (fire_pending _ _ _ x Hf Hs) as Hp.
      destruct (decide (fire_of (lastFire s) x = sentinel)) as [He|He].
      + apply Hp in He. split; [|done]. split.
        * rewrite pending_list_old by done.
          erewrite map_ext; [exact Hq|]. intros y. apply stamp_push.
        * by apply fire_ok_push_same.
      + assert (x ∉ pending_list tr) as Hx by (by rewrite <- Hp). split; [|done]. split; simpl.
        * rewrite pending_list_new by done.
          erewrite map_ext; [|intros y; apply stamp_push].
          rewrite map_app. simpl. rewrite <- Permutation_cons_append. rewrite Hq.
          destruct Hf as [_ Hm]. rewrite Hm, decide_False by done. done.
        * by apply fire_ok_push.
    - intros s tr [Hq _]. simpl. unfold lrf_has.
      destruct (queue s) as [|e l] eqn:E.
      + apply Permutation_nil in Hq. apply map_eq_nil in Hq. by rewrite Hq.
      + split; [|done]. intros _ Hp. rewrite Hp in Hq. simpl in Hq. symmetry in Hq.
        by apply Permutation_nil in Hq.
    - intros s tr [Hq Hf] Hs. simpl. unfold lrf_pop.
      destruct (queue s) as [|e l] eqn:E.
      { apply Permutation_nil in Hq. by apply map_eq_nil in Hq. }
      set (top := min_pair ltT e l).
      destruct (min_pair_spec e l) as [Htop Hmin]. fold top in Htop, Hmin.
      assert (∃ x, x ∈ pending_list tr ∧ top = stamp tr x) as (x & Hx & Hst).
      { rewrite Hq in Htop. apply elem_of_list_fmap in Htop as (x & ? & ?). eauto. }
      rewrite Hst. simpl. split_and!.
      + split; [by apply elem_pending_list|]. intros y Hy. apply elem_pending_list in Hy.
        assert (stamp tr y ∈ e :: l) as Hin.
        { rewrite Hq. apply elem_of_list_fmap. eauto. }
        specialize (Hmin _ Hin). rewrite Hst in Hmin. simpl in Hmin. lia.
      + by apply elem_pending_list.
      + split; [|by apply fire_ok_pop].
        rewrite pending_list_snoc. simpl pending_step. rewrite map_stamp_filter.
        apply (Permutation_cons_inv (a := stamp tr x)).
        cbn [queue].
        etransitivity; [symmetry; apply (remove_one_perm (stamp tr x) (e :: l)); rewrite <- Hst; exact Htop|].
        rewrite Hq. rewrite (perm_remove tr x Hx) at 1. done.
  Qed.

  (** Two-phase *)
  Lemma sort_insert_perm e (l : list (N * T)) : sort_insert ltT e l ≡ₚ e :: l.
  Proof.
    induction l as [|e' l IH]; simpl; [done|]. destruct (pair_lt ltT e' e); [|done].
    rewrite IH. constructor.
  Qed.
  Lemma sort_perm (l : list (N * T)) : sort_pairs ltT l ≡ₚ l.
  Proof.
    induction l as [|e l IH]; simpl; [done|]. by rewrite sort_insert_perm, IH.
  Qed.
  Definition le1 (a b : N * T) : Prop := (a.1 ≤ b.1)%N.
  Lemma sort_insert_sorted e (l : list (N * T)) :
    StronglySorted le1 l → StronglySorted le1 (sort_insert ltT e l).
  Proof.
    induction 1 as [|e' l Hs IH Hall]; simpl; [repeat constructor|].
    destruct (pair_lt ltT e' e) eqn:E.
    - constructor; [done|]. rewrite sort_insert_perm. constructor; [|done].
      by apply pair_lt_fst.
    - apply pair_lt_fst' in E. constructor; [by constructor|]. constructor; [done|].
      eapply Forall_impl; [exact Hall|]. unfold le1 in *. intros. lia.
  Qed.
  Lemma sort_sorted (l : list (N * T)) : StronglySorted le1 (sort_pairs ltT l).
  Proof. induction l as [|e l IH]; simpl; [constructor|]. by apply sort_insert_sorted. Qed.

  Definition lrf2_inv (s : lrf2 T) tr : Prop :=
    current s ≡ₚ map (stamp tr) (batch tr) ∧ StronglySorted le1 (current s) ∧
    (∀ x, x ∈ pending_list tr ↔ x ∈ batch tr ∨ stamp tr x ∈ next s) ∧
    (∀ e, e ∈ next s → e = stamp tr e.2) ∧
    NoDup (next s) ∧ NoDup (batch tr) ∧
    (∀ x, x ∈ batch tr → stamp tr x ∉ next s) ∧
    fire_ok (counter2 s) (lastFire2 s) tr.

  Lemma stamp_inj tr x y : stamp tr x = stamp tr y → x = y.
  Proof. unfold stamp. congruence. Qed.

  Lemma lrf2_correct : correct (TwoPhaseLrfWorklist ltT) two_phase_choice small lrf2_inv.
  Proof.
    split.
    - unfold lrf2_inv; split_and!; simpl;
        try (constructor; fail); try (intros ? Hx; by inversion Hx).
      + intros x. split; [intros Hx; inversion Hx|intros [Hx|Hx]; inversion Hx].
      + split; [done|]. intros x. unfold fire_of. by rewrite lookup_empty.
    - intros s tr x (Hc & Hso & Hp & Hn & Hnd & Hndb & Hdis & Hf) Hs. simpl. unfold lrf2_push.
      rewrite <- elem_pending_list.
      pose proof (fire_pending _ _ _ x Hf Hs) as Hfp.
      assert (∀ y, stamp (tr ++ [Pushed x]) y = stamp tr y) as Hst by (intros; apply stamp_push).
      destruct (decide (fire_of (lastFire2 s) x = sentinel)) as [He|He].
      + apply Hfp in He. split; [|done]. unfold lrf2_inv. rewrite pending_list_old, batch_push by done. simpl.
        erewrite map_ext; [|exact Hst].
        split_and!; try done.
        * intros y. by rewrite Hst, Hp.
        * intros e Hin. rewrite Hst. by apply Hn.
        * intros y Hy. rewrite Hst. by apply Hdis.
        * by apply fire_ok_push_same.
      + assert (x ∉ pending_list tr) as Hx by (by rewrite <- Hfp). split; [|done].
        assert (fire_of (lastFire2 s) x = (stamp tr x).1) as Hfx.
        { destruct Hf as [_ Hm]. rewrite Hm, decide_False by done. done. }
        rewrite Hfx. change ((stamp tr x).1, x) with (stamp tr x).
        unfold lrf2_inv. rewrite pending_list_new, batch_push by done. simpl.
        erewrite map_ext; [|exact Hst].
        assert (stamp tr x ∉ next s) as Hxn. { intros Hin. apply Hx, Hp. by right. }
        assert (x ∉ batch tr) as Hxb. { intros Hin. apply Hx, Hp. by left. }
        split_and!; try done.
        * intros y. rewrite Hst, !elem_of_app, !elem_of_list_singleton, Hp. split.
          -- intros [[?|?]| ->]; auto.
          -- intros [?|[?|He']]; auto. apply stamp_inj in He'. auto.
        * intros e Hin. rewrite Hst. apply elem_of_app in Hin as [Hin|Hin]; [by apply Hn|].
          apply elem_of_list_singleton in Hin as ->. done.
        * apply NoDup_app. split_and!; [done| |apply NoDup_singleton].
          intros e Hin Hin2. apply elem_of_list_singleton in Hin2 as ->. done.
        * intros y Hy. rewrite Hst, elem_of_app, elem_of_list_singleton.
          intros [?|He']; [by apply (Hdis y)|]. apply stamp_inj in He' as ->. done.
        * by apply fire_ok_push.
    - intros s tr (Hc & Hso & Hp & Hn & Hnd & Hndb & Hdis & Hf). simpl. unfold lrf2_has.
      destruct (current s) as [|e l] eqn:E.
      + apply Permutation_nil in Hc. apply map_eq_nil in Hc.
        destruct (next s) as [|e l] eqn:E2.
        * split; [done|]. intros Hne. destruct (pending_list tr) as [|x l] eqn:Epl; [done|].
          exfalso. specialize (Hp x). rewrite Hc in Hp. destruct Hp as [Hp _].
          destruct Hp as [Hp|Hp]; [apply elem_of_list_here|inversion Hp|inversion Hp].
        * split; [|done]. intros _ He. specialize (Hp e.2). rewrite He in Hp.
          destruct Hp as [_ Hp]. assert (e.2 ∈ ([] : list T)) as Hx; [|inversion Hx].
          apply Hp. right. rewrite <- Hn; apply elem_of_list_here.
      + split; [|done]. intros _ He.
        destruct (batch tr) as [|x b] eqn:Eb.
        { simpl in Hc. symmetry in Hc. by apply Permutation_nil in Hc. }
        specialize (Hp x). rewrite He in Hp. destruct Hp as [_ Hp].
        assert (x ∈ ([] : list T)) as Hx; [|inversion Hx].
        apply Hp. left. apply elem_of_list_here.
    - intros s tr (Hc & Hso & Hp & Hn & Hnd & Hndb & Hdis & Hf) Hs. simpl. unfold lrf2_pop.
      (* the batch after a possible refill *)
      assert (∃ cur nxt, (match current s with
                       | [] => (sort_pairs ltT (next s), [])
                       | c => (c, next s)
                       end) = (cur, nxt) ∧
              cur ≡ₚ map (stamp tr) (current_batch tr) ∧ StronglySorted le1 cur ∧
              (∀ x, x ∈ pending_list tr ↔ x ∈ current_batch tr ∨ stamp tr x ∈ nxt) ∧
              (∀ e, e ∈ nxt → e = stamp tr e.2) ∧ NoDup nxt ∧ NoDup (current_batch tr) ∧
              (∀ x, x ∈ current_batch tr → stamp tr x ∉ nxt)) as
        (cur & nxt & Heq & Hc' & Hso' & Hp' & Hn' & Hnd' & Hndb' & Hdis').
      { unfold current_batch. destruct (current s) as [|e l] eqn:E.
        - apply Permutation_nil in Hc. apply map_eq_nil in Hc.
          exists (sort_pairs ltT (next s)), []. rewrite Hc in *.
          split_and!; [done| |apply sort_sorted| | |constructor| |].
          + rewrite sort_perm. apply NoDup_Permutation; [done| |].
            * apply NoDup_fmap_2; [|apply pending_list_NoDup].
              intros x y. apply stamp_inj.
            * intros e. split.
              -- intros He. apply elem_of_list_fmap. exists e.2. split; [by apply Hn|].
                 apply Hp. right. rewrite <- Hn; done.
              -- intros (x & -> & Hx)%elem_of_list_fmap. apply Hp in Hx as [Hx|Hx]; [inversion Hx|done].
          + intros x. split; [by left|]. intros [?|Hx]; [done|inversion Hx].
          + intros e He. inversion He.
          + apply pending_list_NoDup.
          + intros x _ Hx. inversion Hx.
        - exists (e :: l), (next s).
          assert (batch tr ≠ []) as Hne.
          { intros Hb. rewrite Hb in Hc. simpl in Hc. symmetry in Hc. by apply Permutation_nil in Hc. }
          destruct (batch tr) as [|x b] eqn:Eb; [done|]. done. }
      rewrite Heq. destruct cur as [|[n item] cur].
      { apply Permutation_nil in Hc'. apply map_eq_nil in Hc'.
        unfold current_batch in Hc'. destruct (batch tr); [done|done]. }
      assert (item ∈ current_batch tr ∧ (n, item) = stamp tr item) as [Hin Hst].
      { assert ((n, item) ∈ map (stamp tr) (current_batch tr)) as Hx.
        { rewrite <- Hc'. apply elem_of_list_here. }
        apply elem_of_list_fmap in Hx as (x & Hx & Hin).
        unfold stamp in Hx. injection Hx as -> ->. done. }
      split_and!.
      + split; [done|]. intros y Hy.
        assert (stamp tr y ∈ (n, item) :: cur) as Hy'.
        { rewrite Hc'. apply elem_of_list_fmap. eauto. }
        inversion Hso' as [|? ? Hss Hall]; subst.
        rewrite Hst in Hall, Hy'.
        apply elem_of_cons in Hy' as [He|Hy']; [apply stamp_inj in He as ->; done|].
        rewrite Forall_forall in Hall. specialize (Hall _ Hy'). unfold le1, stamp in Hall. simpl in Hall. lia.
      + apply elem_pending_list, Hp'. by left.
      + assert (∀ y, stamp tr y ∈ nxt → y ≠ item) as Hni.
        { intros y Hy ->. by apply (Hdis' item). }
        assert (∀ y, y ≠ item → stamp (tr ++ [Popped item]) y = stamp tr y) as Hstp
          by (intros; by apply stamp_pop).
        unfold lrf2_inv. rewrite pending_list_snoc, batch_pop. simpl.
        rewrite map_stamp_filter.
        split_and!.
        * apply (Permutation_cons_inv (a := stamp tr item)). rewrite <- Hst. rewrite Hc'.
          assert (current_batch tr ≡ₚ item :: filter (λ y, y ≠ item) (current_batch tr)) as Hpm.
          { apply NoDup_Permutation; [done| |].
            - apply NoDup_cons. split; [rewrite elem_of_list_filter; tauto|]. by apply NoDup_filter.
            - intros y. rewrite elem_of_cons, elem_of_list_filter. destruct (decide (y = item)); naive_solver. }
          rewrite Hpm at 1. simpl. by rewrite Hst.
        * by inversion Hso'.
        * intros y. rewrite !elem_of_list_filter, Hp'. split.
          -- intros [Hne [?|Hy]]; [by left|]. right. by rewrite Hstp.
          -- intros [[Hne Hy]|Hy]; [tauto|].
             assert (y ≠ item) as Hne.
             { intros ->. pose proof (Hn' _ Hy) as He. simpl in He. unfold stamp in Hy, He.
               rewrite He in Hy. apply (Hdis' item Hin). exact Hy. }
             rewrite Hstp in Hy by done. tauto.
        * intros e He. rewrite Hstp; [by apply Hn'|]. intros Heq2. apply (Hdis' item Hin).
          rewrite <- Heq2. rewrite <- Hn'; done.
        * done.
        * by apply NoDup_filter.
        * intros y. rewrite elem_of_list_filter. intros [Hne Hy]. rewrite Hstp by done. by apply Hdis'.
        * by apply fire_ok_pop.
  Qed.
End lrf.

Section final.
  Context {T : Type} `{Countable T}.

  Lemma lifo_final ops s (tr : list (event T)) :
    run LifoWorklist (init LifoWorklist, []) ops = Some (s, tr) →
    length tr = length ops ∧ answers LifoWorklist lifo_choice s tr.
  Proof. intros Hr. eapply (run_correct _ _ (λ _, True)); [done|apply lifo_correct|done|done]. Qed.
  Lemma fifo_final ops s (tr : list (event T)) :
    run FifoWorklist (init FifoWorklist, []) ops = Some (s, tr) →
    length tr = length ops ∧ answers FifoWorklist fifo_choice s tr.
  Proof. intros Hr. eapply (run_correct _ _ (λ _, True)); [done|apply fifo_correct|done|done]. Qed.

  Lemma small_prefix (tr : list (event T)) e : small (tr ++ [e]) → small tr.
  Proof. unfold small. rewrite app_length. lia. Qed.

  Lemma run_length (W : worklist T) st ops s tr :
    run W st ops = Some (s, tr) → length tr = length st.2 + length ops.
  Proof.
    revert st. induction ops as [|o ops IH]; intros [s0 tr0] Hr; simpl in *.
    - simplify_eq. lia.
    - destruct o as [x|].
      + apply IH in Hr. simpl in Hr. rewrite app_length in Hr. simpl in Hr. lia.
      + destruct (PopWorkItem W s0) as [[x s']|]; [|done].
        apply IH in Hr. simpl in Hr. rewrite app_length in Hr. simpl in Hr. lia.
  Qed.

  Lemma lrf_final (ltT : T → T → bool) ops s (tr : list (event T)) :
    run (LrfWorklist ltT) (init (LrfWorklist ltT), []) ops = Some (s, tr) →
    (N.of_nat (length ops) < 2 ^ 64 - 1)%N →
    length tr = length ops ∧ answers (LrfWorklist ltT) lrf_choice s tr.
  Proof.
    intros Hr Hb. eapply (run_correct _ _ small); [apply small_prefix|apply lrf_correct|done|].
    apply run_length in Hr. simpl in Hr. unfold small. rewrite Hr. exact Hb.
  Qed.
  Lemma lrf2_final (ltT : T → T → bool) ops s (tr : list (event T)) :
    run (TwoPhaseLrfWorklist ltT) (init (TwoPhaseLrfWorklist ltT), []) ops = Some (s, tr) →
    (N.of_nat (length ops) < 2 ^ 64 - 1)%N →
    length tr = length ops ∧ answers (TwoPhaseLrfWorklist ltT) two_phase_choice s tr.
  Proof.
    intros Hr Hb. eapply (run_correct _ _ small); [apply small_prefix|apply lrf2_correct|done|].
    apply run_length in Hr. simpl in Hr. unfold small. rewrite Hr. exact Hb.
  Qed.

  Lemma workset_ok (ops : list (bool * T)) :
    let s := fold_left (λ s '(b, x), if (b : bool) then workset_push s x else workset_remove s x)
               ops (∅ : gset T) in
    ∀ x, workset_has_item s x = true ↔ ∃ o1 o2, ops = o1 ++ (true, x) :: o2 ∧ (false, x) ∉ o2.
  Proof.
    simpl. induction ops as [|[b y] ops IH] using rev_ind; intros x.
    - unfold workset_has_item. simpl. rewrite bool_decide_eq_true. split; [set_solver|].
      intros (o1 & o2 & He & _). symmetry in He. by apply app_eq_nil in He as [_ ?].
    - rewrite fold_left_app. simpl. set (s := fold_left _ ops _) in *.
      unfold workset_has_item in *. specialize (IH x). rewrite bool_decide_eq_true in *.
      destruct b; unfold workset_push, workset_remove.
      + rewrite elem_of_union, elem_of_singleton, IH. split.
        * intros [->|(o1 & o2 & -> & Hn)].
          -- exists ops, []. split; [done|]. apply not_elem_of_nil.
          -- exists o1, (o2 ++ [(true, y)]). split; [by rewrite <- app_assoc|].
             rewrite elem_of_app, elem_of_list_singleton. intros [?|?]; [done|congruence].
        * intros (o1 & o2 & He & Hn). destruct o2 as [|e o2 _] using rev_ind.
          -- apply app_inj_tail in He as [_ He]. left. congruence.
          -- rewrite app_comm_cons, app_assoc in He. apply app_inj_tail in He as [-> _].
             right. exists o1, o2. split; [done|]. intros Hx. apply Hn, elem_of_app. by left.
      + rewrite elem_of_difference, elem_of_singleton, IH. split.
        * intros [(o1 & o2 & -> & Hn) Hne]. exists o1, (o2 ++ [(false, y)]).
          split; [by rewrite <- app_assoc|].
          rewrite elem_of_app, elem_of_list_singleton. intros [?|?]; [done|congruence].
        * intros (o1 & o2 & He & Hn). destruct o2 as [|e o2 _] using rev_ind.
          -- apply app_inj_tail in He as [_ He]. congruence.
          -- rewrite app_comm_cons, app_assoc in He. apply app_inj_tail in He as [-> <-].
             rewrite elem_of_app, elem_of_list_singleton in Hn. split.
             ++ exists o1, o2. split; [done|]. tauto.
             ++ intros ->. tauto.
  Qed.
End final.
