(** General facts: induction over the tree, the equations are monotone, [ev] is their least solution. *)
From stdpp Require Import base list list_numbers fin_sets gmap.
From Verif.Rvsdg Require Import Model Spec.

Section TreeInd.
  Context (P : node -> Prop) (Q : region -> Prop).
  Hypothesis HN : forall id k ins outs subs, Forall Q subs -> P (Node id k ins outs subs).
  Hypothesis HR : forall args res ns, Forall P ns -> Q (Region args res ns).
  Fixpoint tree_node (n : node) : P n :=
    match n with Node id k ins outs subs =>
      HN id k ins outs subs ((fix go l : Forall Q l := match l with [] => Forall_nil_2 _ | r :: l => Forall_cons_2 _ _ _ (tree_region r) (go l) end) subs) end
  with tree_region (r : region) : Q r :=
    match r with Region args res ns =>
      HR args res ns ((fix go l : Forall P l := match l with [] => Forall_nil_2 _ | n :: l => Forall_cons_2 _ _ _ (tree_node n) (go l) end) ns) end.
  Lemma tree_ind : (forall n, P n) /\ (forall r, Q r).
  Proof using HN HR. split; [exact tree_node | exact tree_region]. Qed.
End TreeInd.

Lemma elem_of_index {A B} (f : nat -> B) (l : list A) x b :
  (x, b) ∈ index f l <-> exists i, l !! i = Some x /\ b = f i.
Proof.
  unfold index. split.
  - intros H. apply elem_of_lookup_imap in H as (i & y & [= -> ->] & Hi). exists i. auto.
  - intros (i & Hi & ->). apply elem_of_lookup_imap. exists i, x. auto.
Qed.
Lemma index_fst {A B} (f : nat -> B) (l : list A) : (index f l).*1 = l.
Proof. unfold index. rewrite fmap_imap. apply list_eq. intros i. rewrite list_lookup_imap. destruct (l !! i); done. Qed.
Lemma elem_of_mjoin_map {A B} (f : A -> list B) (l : list A) y : y ∈ mjoin (map f l) <-> exists x, x ∈ l /\ y ∈ f x.
Proof.
  rewrite elem_of_list_join. split.
  - intros (l' & H1 & H2). apply elem_of_list_In, in_map_iff in H2 as (x & <- & Hx). exists x. rewrite elem_of_list_In. auto.
  - intros (x & Hx & Hy). exists (f x). split; [done|]. apply elem_of_list_In, in_map_iff. exists x. rewrite <-elem_of_list_In. auto.
Qed.
Lemma ndefs_unfold id k ins outs subs x : x ∈ ndefs (Node id k ins outs subs) <->
  x ∈ index (out_view id k ins outs subs) outs \/ exists r, r ∈ subs /\ (x ∈ index (arg_view k ins outs r) (rargs r) \/ x ∈ rdefs r).
Proof. cbn [ndefs]. rewrite elem_of_app, elem_of_mjoin_map. setoid_rewrite elem_of_app. done. Qed.
Lemma rdefs_unfold args res ns x : x ∈ rdefs (Region args res ns) <-> exists n, n ∈ ns /\ x ∈ ndefs n.
Proof. cbn [rdefs]. apply elem_of_mjoin_map. Qed.

Section Ev.
  Context {V : Type} (ctl : V -> option nat) (content : V -> V) (sem : nat -> list V -> option (list V)) (addr imp : nat -> V).
  Local Notation eqn := (eqn ctl content sem addr imp).
  Local Notation step := (step ctl content sem addr imp).
  Local Notation ev := (ev ctl content sem addr imp).
  Local Notation rel := (env (V:=V) -> oid -> V -> Prop).

  Lemma loop_mono (R R' : rel) pred post lvs vs v : (forall e o v, R e o v -> R' e o v) ->
    loop ctl R pred post lvs vs v -> loop ctl R' pred post lvs vs v.
  Proof using. intros HR. induction 1; [eapply loop_exit; eauto | eapply loop_next; eauto]. eapply Forall2_impl; eauto. Qed.
  Lemma eqn_mono (R R' : rel) e o w v : (forall e o v, R e o v -> R' e o v) -> eqn R e o w v -> eqn R' e o w v.
  Proof using.
    intros HR. destruct w; cbn [Spec.eqn]; eauto.
    - intros (vs & ws & H & ?). exists vs, ws. split; [eapply Forall2_impl; eauto | done].
    - intros (pv & b & x & c & es & vs & ? & ? & ? & ? & ?). exists pv, b, x, c, es, vs. repeat split; eauto. eapply Forall2_impl; eauto.
    - intros (vs & ? & ?). exists vs. split; [eapply Forall2_impl; eauto | eapply loop_mono; eauto].
  Qed.
  Lemma step_mono t (R R' : rel) e o v : (forall e o v, R e o v -> R' e o v) -> step t R e o v -> step t R' e o v.
  Proof using. intros HR (w & Hw & H). exists w. split; [done | eapply eqn_mono; eauto]. Qed.
  Lemma ev_fold t e o v : step t (ev t) e o v -> ev t e o v.
  Proof using. intros H R HR. apply HR. eapply step_mono; [|exact H]. intros e' o' v' H'. apply H', HR. Qed.
  Lemma ev_ind t (R : rel) : (forall e o v, step t (fun e o v => ev t e o v /\ R e o v) e o v -> R e o v) ->
    forall e o v, ev t e o v -> R e o v.
  Proof using.
    intros H e o v Hev. apply (Hev (fun e o v => ev t e o v /\ R e o v)). intros e' o' v' Hs. split; [|auto].
    apply ev_fold. eapply step_mono; [|exact Hs]. intros ??? [H1 H2]; exact H1.
  Qed.
  Lemma ev_unfold t e o v : ev t e o v -> step t (ev t) e o v.
  Proof using. revert e o v. apply ev_ind. intros e o v H. eapply step_mono; [|exact H]. intros ??? [H1 H2]; exact H1. Qed.
End Ev.
