(** A function that finds strongly connected components: there is one. *)
From stdpp Require Import tactics relations base list list_numbers fin_sets gmap fin_maps.
From Verif.Construct Require Import Model Spec.
From Verif.Aggregation Require Import Model Spec.

Section Closure.
  Context (G : graph) (x : nat).
  Definition next_nodes (S : gset nat) : gset nat := set_bind (fun p => if decide (p = x) then ∅ else list_to_set (outs_of G p)) S.
  Fixpoint closure (n : nat) (S : gset nat) : gset nat :=
    match n with 0 => S | S n => let S' := S ∪ next_nodes S in if decide (S' ⊆ S) then S else closure n S' end.
  Lemma elem_next S q : q ∈ next_nodes S <-> exists p, p ∈ S /\ step G x p q.
  Proof.
    unfold next_nodes, step. rewrite elem_of_set_bind. split.
    - intros (p & Hp & Hq). case_decide; [by apply elem_of_empty in Hq|]. apply elem_of_list_to_set in Hq. eauto.
    - intros (p & Hp & Hx & Hq). exists p. split; [done|]. rewrite decide_False by done. by apply elem_of_list_to_set.
  Qed.
  Definition universe : gset nat := ⋃ ((fun p => list_to_set (outs p.2)) <$> map_to_list G).
  Lemma step_universe p q : step G x p q -> q ∈ universe.
  Proof.
    intros (_ & Hq). unfold outs_of in Hq. destruct (G !! p) as [nd|] eqn:E; [|by apply elem_of_nil in Hq]. unfold universe. apply elem_of_union_list. exists (list_to_set (outs nd)).
    split; [|by apply elem_of_list_to_set]. apply elem_of_list_fmap. exists (p, nd). split; [done|]. by apply elem_of_map_to_list.
  Qed.
  Lemma closure_ok n : forall S U, S ⊆ U -> universe ⊆ U -> size U < n + size S ->
    (forall q, q ∈ closure n S <-> exists p, p ∈ S /\ rtc (step G x) p q).
  Proof.
    induction n as [|n IH]; intros S U HS HU Hn q; [pose proof (subseteq_size S U HS); lia|]. cbn. case_decide as Hc.
    - assert (Hcl : forall p q, p ∈ S -> rtc (step G x) p q -> q ∈ S).
      { intros p q' Hp Hr. induction Hr as [p|p w q' Hw _ IHr]; [done|]. apply IHr. apply Hc, elem_of_union. right. apply elem_next. eauto. }
      split; [intros Hq; by exists q|]. intros (p & Hp & Hr). by eapply Hcl.
    - rewrite (IH _ U).
      + split.
        * intros (p & [Hp|(p0 & Hp0 & Hs)%elem_next]%elem_of_union & Hr); [eauto|]. exists p0. split; [done|]. by eapply rtc_l.
        * intros (p & Hp & Hr). exists p. split; [apply elem_of_union; by left|done].
      + apply union_least; [done|]. intros w (p & _ & Hw)%elem_next. by apply HU, (step_universe p).
      + done.
      + assert (size S < size (S ∪ next_nodes S)); [|lia]. apply subset_size. split; [apply union_subseteq_l|done].
  Qed.
  Definition from (v : nat) : gset nat := closure (S (size (universe ∪ {[v]}))) {[v]}.
  Lemma elem_from v q : q ∈ from v <-> rtc (step G x) v q.
  Proof.
    unfold from. rewrite (closure_ok _ _ (universe ∪ {[v]})); [|apply union_subseteq_r|apply union_subseteq_l|rewrite size_singleton; lia].
    split; [intros (p & ->%elem_of_singleton & Hr); done|]. intros Hr. exists v. split; [by apply elem_of_singleton|done].
  Qed.
  Definition component (v : nat) : gset nat := filter (fun w => v ∈ from w) (from v).
  Definition components (e : nat) : list (gset nat) :=
    remove_dups (component <$> filter (fun v => component v <> {[v]} \/ v ∈ outs_of G v) (elements (from e))).
End Closure.
Definition some_find_sccs (G : graph) (e x : nat) : list (gset nat) := components G x e.
Lemma some_finds_sccs : finds_sccs some_find_sccs.
Proof.
  intros G e x. split; [apply NoDup_remove_dups|]. intros C. unfold some_find_sccs, components. rewrite elem_of_remove_dups, elem_of_list_fmap.
  assert (Hc : forall v w, w ∈ component G x v <-> rtc (step G x) v w /\ rtc (step G x) w v). { intros v w. unfold component. rewrite elem_of_filter, !elem_from. tauto. }
  split.
  - intros (v & -> & Hv). apply elem_of_list_filter in Hv as (Hv & Hev). apply elem_of_elements, elem_from in Hev. exists v. split; [done|]. split; [apply Hc|done].
  - intros (v & Hev & HC & Hv). assert (C = component G x v) as ->. { apply set_eq. intros w. by rewrite HC, Hc. }
    exists v. split; [done|]. apply elem_of_list_filter. split; [done|]. by apply elem_of_elements, elem_from.
Qed.
