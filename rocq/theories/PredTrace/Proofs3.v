From stdpp Require Import base list gmap numbers relations.
From Verif.PredTrace Require Import Model Spec Proofs1 Proofs2.

Definition setobs (o : gset nat) (st : tstate) : tstate := TState (ranges st) (visited st) o.

Lemma note_visited g i r st : visited (note g i r st) = <[i := r]> (visited st).
Proof. unfold note. destruct (istruct g i); [|reflexivity]. destruct (ranges st !! iregion g i); reflexivity. Qed.

Lemma note_setobs g i r st o : exists o', note g i r (setobs o st) = setobs o' (note g i r st).
Proof.
  unfold note, setobs. simpl. destruct (istruct g i); [|exists o; reflexivity].
  destruct (ranges st !! iregion g i); simpl; eexists; reflexivity.
Qed.

(* every run keeps what is visited, and visits its input *)
Lemma union_grows rec : (forall i st r st', rec i st = Some (r, st') -> grows st st' /\ is_Some (visited st' !! i)) ->
  forall rs acc st r st', union_results rec rs acc st = Some (r, st') -> grows st st'.
Proof.
  intros Hrec. induction rs as [|res rs IH]; intros acc st r st' H; simpl in H.
  - injection H as <- <-. intros j Hj. exact Hj.
  - destruct (rec res st) as [[r1 st1]|] eqn:E; [|discriminate]. intros j Hj. apply (IH _ _ _ _ H), (proj1 (Hrec _ _ _ _ E)), Hj.
Qed.

Lemma compute_grows g ty rec : (forall i st r st', rec i st = Some (r, st') -> grows st st' /\ is_Some (visited st' !! i)) ->
  forall i st r st', compute g ty rec i st = Some (r, st') -> grows st st'.
Proof.
  intros Hrec i st r st' H. unfold compute in H.
  assert (Hsame : forall x, Some (x, st) = Some (r, st') -> grows st st') by (intros x [= <- <-] j Hj; exact Hj).
  destruct (odefn g (origin g i)) as [alt nalts| |rs|inp post pre|inp| |inp post|]; try (eapply Hsame; exact H).
  - eapply union_grows; eauto.
  - destruct (origin g post =? pre); exact (proj1 (Hrec _ _ _ _ H)).
  - exact (proj1 (Hrec _ _ _ _ H)).
  - destruct (origin g post =? origin g i); [exact (proj1 (Hrec _ _ _ _ H))|eapply Hsame; exact H].
Qed.

Lemma record_grows g ty fuel : forall i st r st', compute_and_record fuel g ty i st = Some (r, st') -> grows st st' /\ is_Some (visited st' !! i).
Proof.
  induction fuel as [|f IH]; intros i st r st' H; simpl in H; [discriminate|].
  destruct (visited st !! i) as [r0|] eqn:E; [injection H as <- <-; split; [intros j Hj; exact Hj|rewrite E; eauto]|].
  destruct (compute g ty (compute_and_record f g ty) i st) as [[r1 st1]|] eqn:Ec; [|discriminate].
  injection H as <- <-. pose proof (compute_grows g ty _ IH _ _ _ _ Ec) as Hg. rewrite note_visited. split.
  - intros j Hj. rewrite note_visited. destruct (decide (i = j)) as [->|Hd]; [rewrite lookup_insert; eauto|].
    rewrite lookup_insert_ne by exact Hd. apply Hg, Hj.
  - rewrite lookup_insert. eauto.
Qed.

(* a run that never visits an input does not see its origin *)
Section Divert.
  Context (g : graph) (i0 o0 ty : nat) (Hnl : no_loop_variables g).

  Lemma union_transfer f : (forall i st r st', compute_and_record f g ty i st = Some (r, st') -> visited st' !! i0 = None ->
      compute_and_record f (divert g i0 o0) ty i st = Some (r, st')) ->
    forall rs acc st r st', union_results (compute_and_record f g ty) rs acc st = Some (r, st') -> visited st' !! i0 = None ->
      union_results (compute_and_record f (divert g i0 o0) ty) rs acc st = Some (r, st').
  Proof.
    intros Hrec. induction rs as [|res rs IH]; intros acc st r st' H Hn; simpl in H |- *; [exact H|].
    destruct (compute_and_record f g ty res st) as [[r1 st1]|] eqn:E; [|discriminate].
    rewrite (Hrec _ _ _ _ E).
    - exact (IH _ _ _ _ H Hn).
    - destruct (visited st1 !! i0) as [x|] eqn:Ex; [|reflexivity]. exfalso.
      assert (Hs : is_Some (visited st' !! i0)).
      { eapply union_grows; [apply record_grows|exact H|]. rewrite Ex. eauto. }
      rewrite Hn in Hs. destruct Hs; discriminate.
  Qed.

  Lemma record_transfer fuel : forall i st r st', compute_and_record fuel g ty i st = Some (r, st') -> visited st' !! i0 = None ->
    compute_and_record fuel (divert g i0 o0) ty i st = Some (r, st').
  Proof.
    induction fuel as [|f IH]; intros i st r st' H Hn; [discriminate|].
    assert (Hne : i <> i0).
    { intros ->. pose proof (proj2 (record_grows _ _ _ _ _ _ _ H)) as Hs. rewrite Hn in Hs. destruct Hs; discriminate. }
    cbn [compute_and_record] in H |- *.
    destruct (visited st !! i) as [r0|] eqn:E; [exact H|].
    destruct (compute g ty (compute_and_record f g ty) i st) as [[r1 st1]|] eqn:Ec; [|discriminate].
    assert (Hn1 : visited st1 !! i0 = None).
    { injection H as <- <-. rewrite note_visited, lookup_insert_ne in Hn by exact Hne. exact Hn. }
    assert (Hc : compute (divert g i0 o0) ty (compute_and_record f (divert g i0 o0) ty) i st = Some (r1, st1)).
    { unfold compute in Ec |- *. cbn [origin odefn divert].
      destruct (Nat.eqb_spec i i0) as [|_]; [contradiction|].
      pose proof (Hnl (origin g i)) as Hl.
      destruct (odefn g (origin g i)) as [alt nalts| |rs|inp post pre|inp| |inp post|]; try exact Ec; try (destruct Hl; fail).
      - apply union_transfer; assumption.
      - apply IH; assumption. }
    rewrite Hc. exact H.
  Qed.
End Divert.

(* more fuel and other observers change nothing *)
Lemma record_sim g ty f : forall f', f <= f' -> forall i st r st' o, compute_and_record f g ty i st = Some (r, st') ->
  exists o', compute_and_record f' g ty i (setobs o st) = Some (r, setobs o' st').
Proof.
  induction f as [|f IH]; intros f' Hf i st r st' o H; [discriminate|].
  destruct f' as [|f']; [lia|]. cbn [compute_and_record] in H |- *.
  assert (IH' := IH f' (le_S_n _ _ Hf)).
  cbn [visited setobs].
  destruct (visited st !! i) as [r0|] eqn:E; [injection H as <- <-; exists o; reflexivity|].
  destruct (compute g ty (compute_and_record f g ty) i st) as [[r1 st1]|] eqn:Ec; [|discriminate].
  injection H as <- <-.
  assert (Hc : exists o', compute g ty (compute_and_record f' g ty) i (setobs o st) = Some (r1, setobs o' st1)).
  { unfold compute in Ec |- *.
    assert (Hu : forall rs acc st r st' o, union_results (compute_and_record f g ty) rs acc st = Some (r, st') ->
              exists o', union_results (compute_and_record f' g ty) rs acc (setobs o st) = Some (r, setobs o' st')).
    { clear -IH'. induction rs as [|res rs IHrs]; intros acc st r st' o H; simpl in H |- *.
      - injection H as <- <-. exists o. reflexivity.
      - destruct (compute_and_record f g ty res st) as [[r1 st1]|] eqn:E; [|discriminate].
        destruct (IH' _ _ _ _ o E) as [o1 ->]. exact (IHrs _ _ _ _ o1 H). }
    destruct (odefn g (origin g i)) as [alt nalts| |rs|inp post pre|inp| |inp post|];
      try (injection Ec as <- <-; exists o; reflexivity).
    - apply Hu. exact Ec.
    - destruct (origin g post =? pre); apply IH'; exact Ec.
    - apply IH'. exact Ec.
    - destruct (origin g post =? origin g i); [apply IH'; exact Ec|injection Ec as <- <-; exists o; reflexivity]. }
  destruct Hc as [o1 ->]. destruct (note_setobs g i r1 st1 o1) as [o2 Ho2]. exists o2. rewrite Ho2. reflexivity.
Qed.

(* the regions with a range are observed, and observers stay *)
Definition keyed (st : tstate) : Prop := forall k, is_Some (ranges st !! k) -> k ∈ observed st.

Lemma note_keyed g i r st : keyed st -> keyed (note g i r st) /\ observed st ⊆ observed (note g i r st).
Proof.
  intros Hk. unfold note. destruct (istruct g i); [|split; [exact Hk|intros x Hx; exact Hx]].
  destruct (ranges st !! iregion g i) as [r0|] eqn:E; simpl.
  - split; [|intros x Hx; exact Hx]. intros k Hs. simpl in *. destruct (decide (iregion g i = k)) as [Hd|Hd].
    + subst k. apply Hk. rewrite E. eauto.
    + rewrite lookup_insert_ne in Hs by exact Hd. apply Hk, Hs.
  - split; [|intros x Hx; simpl; apply elem_of_union_r, Hx]. intros k Hs. simpl in *. destruct (decide (iregion g i = k)) as [Hd|Hd].
    + subst k. apply elem_of_union_l, elem_of_singleton. reflexivity.
    + rewrite lookup_insert_ne in Hs by exact Hd. apply elem_of_union_r, Hk, Hs.
Qed.

Lemma record_keyed g ty f : forall i st r st', keyed st -> compute_and_record f g ty i st = Some (r, st') -> keyed st' /\ observed st ⊆ observed st'.
Proof.
  induction f as [|f IH]; intros i st r st' Hk H; simpl in H; [discriminate|].
  assert (Hsame : forall x : gset nat, x ⊆ x) by (intros x y Hy; exact Hy).
  destruct (visited st !! i) as [r0|] eqn:E; [injection H as <- <-; split; [exact Hk|apply Hsame]|].
  destruct (compute g ty (compute_and_record f g ty) i st) as [[r1 st1]|] eqn:Ec; [|discriminate].
  injection H as <- <-.
  assert (Hc : keyed st1 /\ observed st ⊆ observed st1).
  { unfold compute in Ec.
    assert (Hu : forall rs acc st r st', keyed st -> union_results (compute_and_record f g ty) rs acc st = Some (r, st') ->
              keyed st' /\ observed st ⊆ observed st').
    { clear -IH Hsame. induction rs as [|res rs IHrs]; intros acc st r st' Hk H; simpl in H.
      - injection H as <- <-. split; [exact Hk|apply Hsame].
      - destruct (compute_and_record f g ty res st) as [[r1 st1]|] eqn:E; [|discriminate].
        destruct (IH _ _ _ _ Hk E) as [Hk1 Ho1]. destruct (IHrs _ _ _ _ Hk1 H) as [Hk2 Ho2].
        split; [exact Hk2|]. intros x Hx. apply Ho2, Ho1, Hx. }
    destruct (odefn g (origin g i)) as [alt nalts| |rs|inp post pre|inp| |inp post|];
      try (injection Ec as <- <-; split; [exact Hk|apply Hsame]).
    - eapply Hu; eauto.
    - destruct (origin g post =? pre); eapply IH; eauto.
    - eapply IH; eauto.
    - destruct (origin g post =? origin g i); [eapply IH; eauto|injection Ec as <- <-; split; [exact Hk|apply Hsame]]. }
  destruct Hc as [Hk1 Ho1]. destruct (note_keyed g i r1 st1 Hk1) as [Hk2 Ho2].
  split; [exact Hk2|]. intros x Hx. apply Ho2, Ho1, Hx.
Qed.
