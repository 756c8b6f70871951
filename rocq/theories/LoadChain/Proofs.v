(** The separated chain does what the chain does. *)
From stdpp Require Import base list.
From Coq Require Import Lia.
From Verif.LoadChain Require Import Model Spec.

Lemma state_ind' (P : state -> Prop) :
  P Start -> (forall n s, P s -> P (Load n s)) -> (forall n s, P s -> P (Modify n s)) ->
  (forall n p s, P p -> P s -> P (Loop n p s)) -> (forall n s, P s -> P (Call n s)) -> (forall s, P s -> P (ExitSplit s)) ->
  (forall ss, Forall P ss -> P (Merge ss)) -> (forall n ss, Forall P ss -> P (Gamma n ss)) -> forall s, P s.
Proof.
  intros H1 H2 H3 H4 H5 H6 H7 H8. fix IH 1. intros s. destruct s as [|n s|n s|n p s|n s|s|ss|n ss].
  - exact H1.
  - apply H2, IH.
  - apply H3, IH.
  - apply H4; apply IH.
  - apply H5, IH.
  - apply H6, IH.
  - apply H7. induction ss as [|s ss IHs]; constructor; [apply IH|exact IHs].
  - apply H8. induction ss as [|s ss IHs]; constructor; [apply IH|exact IHs].
Qed.

Section Exec.
  Context {mem : Type} (effect : nat -> mem -> mem) (iterations : nat -> mem -> nat).
  Notation run := (run effect iterations).
  Notation step := (step effect iterations).
  Notation exec_chain := (exec_chain effect iterations).
  Notation exec_items := (exec_items effect iterations).

  (** Where tracing finds no modification and there is no call, memory does not
      change. *)
  Theorem trace_sound s : trace s = false -> calls s = false -> forall m, run s m = m.
  Proof.
    induction s as [|n s IH|n s IH|n p s IHp IH|n s IH|s IH|ss IH|n ss IH] using state_ind'; cbn; intros Ht Hc m; try discriminate; auto.
    - apply orb_false_iff in Ht as [T1 T2]. apply orb_false_iff in Hc as [C1 C2]. rewrite (IH T2 C2).
      generalize (iterations n m). intros k. induction k as [|k IHk]; [reflexivity|]. change (run p (Nat.iter k (run p) m) = m). rewrite IHk. exact (IHp T1 C1 m).
    - revert m. induction IH as [|s ss Hs _ IHs]; intros m; [reflexivity|]. cbn in *.
      apply orb_false_iff in Ht as [T1 T2]. apply orb_false_iff in Hc as [C1 C2]. rewrite (Hs T1 C1). exact (IHs T2 C2 m).
  Qed.

  Definition references_keep (ls : list link) : Prop := forall l, l ∈ ls -> type l = Reference -> forall m, step (link_node l) m = m.

  Lemma chain_references s : loops_without_calls s -> references_keep (chain s).
  Proof.
    induction s as [|n s IH|n s IH|n p s _ IH|n s _|s _|ss _|n ss _] using state_ind'; cbn; intros H l Hl Hr m; try (inversion Hl; fail).
    - apply elem_of_cons in Hl. destruct Hl as [->|Hl]; [reflexivity|exact (IH H l Hl Hr m)].
    - apply elem_of_cons in Hl. destruct Hl as [->|Hl]; [discriminate Hr|exact (IH H l Hl Hr m)].
    - destruct H as [Hc H]. apply elem_of_cons in Hl. destruct Hl as [->|Hl]; [|exact (IH H l Hl Hr m)].
      cbn in *. destruct (trace p) eqn:Et; [discriminate Hr|].
      generalize (iterations n m). intros k. induction k as [|k IHk]; [reflexivity|]. change (run p (Nat.iter k (run p) m) = m). rewrite IHk. exact (trace_sound p Et Hc m).
    - apply elem_of_list_singleton in Hl as ->. discriminate Hr.
  Qed.

  Lemma take_references_spec ls : forall refs rest, take_references ls = (refs, rest) ->
    ls = refs ++ rest /\ (forall l, l ∈ refs -> type l = Reference) /\ length rest <= length ls /\
    (match rest with l :: _ => type l = Modification | [] => True end).
  Proof.
    induction ls as [|[n [|]] ls IH]; intros refs rest H; cbn in H.
    - injection H as <- <-. repeat split; [|cbn; lia]. intros l Hl. inversion Hl.
    - injection H as <- <-. repeat split; [|cbn; lia]. intros l Hl. inversion Hl.
    - destruct (take_references ls) as [refs' rest'] eqn:E. injection H as <- <-.
      destruct (IH _ _ eq_refl) as (H1 & H2 & H3 & H4). split; [cbn; f_equal; exact H1|]. split; [|split; [cbn; lia|exact H4]].
      intros l Hl. apply elem_of_cons in Hl. destruct Hl as [->|Hl]; [reflexivity|exact (H2 l Hl)].
  Qed.

  Lemma exec_chain_references refs : (forall l, l ∈ refs -> type l = Reference) -> references_keep refs ->
    forall rest m seen m', exec_chain rest m = (seen, m') ->
    exec_chain (refs ++ rest) m = (((fun l => (link_node l, m')) <$> refs) ++ seen, m').
  Proof.
    induction refs as [|l refs IH]; intros Hr Hk rest m seen m' He; cbn; [exact He|].
    rewrite (IH (fun l' H => Hr l' (elem_of_list_further _ _ _ H)) (fun l' H => Hk l' (elem_of_list_further _ _ _ H)) _ _ _ _ He).
    rewrite (Hk l (elem_of_list_here _ _) (Hr l (elem_of_list_here _ _))). reflexivity.
  Qed.

  Lemma separate_from_exec fuel : forall ls m seen m', length ls <= fuel -> references_keep ls ->
    exec_chain ls m = (seen, m') -> exec_items (separate_from fuel ls) m seen m'.
  Proof.
    induction fuel as [|fuel IH]; intros ls m seen m' Hf Hk He.
    - destruct ls; [|cbn in Hf; lia]. cbn in He. injection He as <- <-. constructor.
    - destruct ls as [|[n t] ls]; [cbn in He; injection He as <- <-; constructor|].
      assert (references_keep ls) as Hk' by (intros l Hl; apply Hk; apply elem_of_list_further; exact Hl).
      assert (forall t', exec_items (Single (Link n t') :: separate_from fuel ls) m seen m') as Hone.
      { intros t'. cbn in He. destruct (exec_chain ls m) as [seen' m1] eqn:E. injection He as <- <-.
        apply (exec_single _ _ (Link n t')). apply IH; [cbn in Hf; lia|exact Hk'|exact E]. }
      destruct t; [exact (Hone Modification)|].
      destruct ls as [|[n2 [|]] ls]; [exact (Hone Reference)|exact (Hone Reference)|].
      cbn [separate_from]. destruct (take_references (Link n Reference :: Link n2 Reference :: ls)) as [refs rest] eqn:Et.
      destruct (take_references_spec _ _ _ Et) as (H1 & H2 & _ & _).
      destruct (exec_chain rest m) as [seen' m1] eqn:E.
      assert (references_keep refs) as Hkr. { intros l Hl. apply Hk. rewrite H1. apply elem_of_app. auto. }
      rewrite H1 in He. rewrite (exec_chain_references refs H2 Hkr rest m seen' m1 E) in He. injection He as <- <-.
      assert (refs <> []) as Hne. { cbn in Et. destruct (take_references ls). injection Et as <- _. discriminate. }
      apply exec_parallel with (m' := m1).
      + apply IH; [|intros l Hl; apply Hk; rewrite H1; apply elem_of_app; auto|exact E].
        assert (length (refs ++ rest) <= S fuel) as Hlen by (rewrite <- H1; exact Hf). rewrite app_length in Hlen.
        destruct refs; [congruence|cbn in Hlen; lia].
      + exact Hne.
      + intros l Hl. exact (Hkr l Hl (H2 l Hl) m1).
  Qed.

  Lemma exec_items_det is : forall m seen1 m1 seen2 m2, exec_items is m seen1 m1 -> exec_items is m seen2 m2 -> seen1 = seen2 /\ m1 = m2.
  Proof.
    intros m seen1 m1 seen2 m2 H. revert seen2 m2. induction H as [m|l is m seen m' H IH|ls is m seen m' m'' H IH Hne Hall]; intros seen2 m2 H2; inversion H2; subst.
    - auto.
    - match goal with H : Spec.exec_items _ _ is m _ _ |- _ => destruct (IH _ _ H) as [-> ->] end. auto.
    - match goal with H : Spec.exec_items _ _ is m _ _ |- _ => destruct (IH _ _ H) as [-> ->] end.
      split; [reflexivity|]. destruct ls as [|l ls]; [congruence|].
      rewrite <- (Hall l (elem_of_list_here _ _)). match goal with H : forall l, _ -> _ = m2 |- _ => apply (H l (elem_of_list_here _ _)) end.
  Qed.

  (** Every load, store, loop and gamma node sees the memory it saw before, and
      the memory at the end is the same. *)
  Theorem load_chain_preserves_partial s m seen m' : loops_without_calls s ->
    exec_items (separate (chain s)) m seen m' <-> exec_chain (chain s) m = (seen, m').
  Proof.
    intros H. pose proof (chain_references s H) as Hk. unfold separate.
    destruct (exec_chain (chain s) m) as [seen0 m0] eqn:E.
    pose proof (separate_from_exec (length (chain s)) (chain s) m seen0 m0 (le_n _) Hk E) as Hex. split.
    - intros H'. destruct (exec_items_det _ _ _ _ _ _ H' Hex) as [-> ->]. reflexivity.
    - intros He. injection He as <- <-. exact Hex.
  Qed.
End Exec.

(** Nothing is lost, and no two references are left one below the other. *)
Lemma separate_from_links fuel : forall ls, length ls <= fuel -> links_of (separate_from fuel ls) = ls.
Proof.
  induction fuel as [|fuel IH]; intros ls Hf; [destruct ls; [reflexivity|cbn in Hf; lia]|].
  destruct ls as [|[n t] ls]; [reflexivity|]. cbn in Hf.
  assert (forall t', links_of (Single (Link n t') :: separate_from fuel ls) = Link n t' :: ls) as Hone.
  { intros t'. unfold links_of in *. cbn. f_equal. apply IH. lia. }
  destruct t; [exact (Hone _)|]. destruct ls as [|[n2 [|]] ls]; [exact (Hone _)|exact (Hone _)|].
  cbn [separate_from]. destruct (take_references (Link n Reference :: Link n2 Reference :: ls)) as [refs rest] eqn:Et.
  destruct (take_references_spec _ _ _ Et) as (H1 & _ & _ & _).
  assert (refs <> []) as Hne. { cbn in Et. destruct (take_references ls). injection Et as <- _. discriminate. }
  change (refs ++ links_of (separate_from fuel rest) = Link n Reference :: Link n2 Reference :: ls). rewrite IH.
  - symmetry. exact H1.
  - pose proof (f_equal length H1) as Hl. rewrite app_length in Hl. cbn in Hl, Hf. destruct refs; [congruence|cbn in Hl; lia].
Qed.
Definition reference_item (i : item) : bool := match i with Single (Link _ Modification) => false | _ => true end.
Fixpoint separated (is : list item) : Prop :=
  match is with
  | i :: is => match is with j :: _ => (reference_item i && reference_item j) = false | [] => True end /\ separated is
  | [] => True
  end.
Lemma separate_from_head fuel ls : length ls <= fuel -> match ls with Link _ Modification :: _ => True | [] => True | _ => False end ->
  match separate_from fuel ls with j :: _ => reference_item j = false | [] => True end.
Proof.
  intros Hf H. destruct ls as [|[n [|]] ls]; [destruct fuel; exact I| |destruct H]. destruct fuel; [cbn in Hf; lia|reflexivity].
Qed.
Lemma separate_from_separated fuel : forall ls, length ls <= fuel -> separated (separate_from fuel ls).
Proof.
  induction fuel as [|fuel IH]; intros ls Hf; [exact I|].
  destruct ls as [|[n t] ls]; [exact I|]. cbn in Hf. destruct t.
  - split; [|apply IH; lia]. destruct (separate_from fuel ls); [exact I|reflexivity].
  - assert (match ls with Link _ Modification :: _ => True | [] => True | _ => False end -> separated (Single (Link n Reference) :: separate_from fuel ls)) as Hone.
    { intros Hh. pose proof (separate_from_head fuel ls ltac:(lia) Hh) as Hj. split; [|apply IH; lia].
      destruct (separate_from fuel ls); [exact I|]. rewrite Hj. reflexivity. }
    destruct ls as [|[n2 [|]] ls]; [apply Hone; exact I|apply Hone; exact I|]. clear Hone.
    cbn [separate_from]. destruct (take_references (Link n Reference :: Link n2 Reference :: ls)) as [refs rest] eqn:Et.
    destruct (take_references_spec _ _ _ Et) as (H1 & _ & _ & H4).
    assert (refs <> []) as Hne. { cbn in Et. destruct (take_references ls). injection Et as <- _. discriminate. }
    assert (length rest <= fuel) as Hr. { pose proof (f_equal length H1) as Hl. rewrite app_length in Hl. cbn in Hl, Hf. destruct refs; [congruence|cbn in Hl; lia]. }
    split; [|exact (IH rest Hr)].
    pose proof (separate_from_head fuel rest Hr) as Hj. destruct (separate_from fuel rest) as [|j js]; [exact I|]. rewrite Hj; [reflexivity|].
    destruct rest as [|[n3 t3] rest]; [exact I|]. cbn in H4. rewrite H4. exact I.
Qed.
Theorem separate_complete ls : links_of (separate ls) = ls /\ separated (separate ls).
Proof. split; [apply separate_from_links|apply separate_from_separated]; apply le_n. Qed.

(** A loop with a call in it is taken for a reference:
      while (...) g();  x = *p;
    the load is executed on the memory before the loop, and the states that
    are joined differ. *)
Theorem load_chain_call_refuted : exists (effect : nat -> nat -> nat) iterations s,
  (exists seen m', exec_chain effect iterations (chain s) 0 = (seen, m') /\ (NLoad 2, 7) ∈ seen) /\
  (exists l ls, separate (chain s) = [Parallel (Link (NLoad 2) Reference :: Link l Reference :: ls)]) /\
  forall seen m', ~ exec_items effect iterations (separate (chain s)) 0 seen m'.
Proof.
  exists (fun _ _ => 7), (fun _ _ => 1), (Load 2 (Loop 1 (ExitSplit (Call 0 (Merge [Start]))) Start)).
  split; [|split].
  - eexists _, _. split; [reflexivity|apply elem_of_list_here].
  - eexists _, _. reflexivity.
  - intros seen m' H. inversion H as [| |ls is m seen' m1 m'' Hn Hne Hall]; subst. inversion Hn; subst.
    pose proof (Hall _ (elem_of_list_here _ _)) as H1.
    pose proof (Hall _ (elem_of_list_further _ _ _ (elem_of_list_here _ _))) as H2. cbn in H1, H2. congruence.
Qed.
