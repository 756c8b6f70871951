(** The value of an output depends on the values of the arguments of its own region only. *)
From stdpp Require Import base list list_numbers fin_sets gmap.
From Verif.Rvsdg Require Import Model Spec Sem Wf WfFacts Det.

Section Local.
  Context {V : Type} (ctl : V -> option nat) (content : V -> V) (sem : nat -> list V -> option (list V)) (addr imp : nat -> V).
  Local Notation ev := (ev ctl content sem addr imp).
  Definition esub (e e' : env (V:=V)) : Prop := forall a v, e a = Some v -> e' a = Some v.
  Lemma ev_env_mono t e e' o v : esub e e' -> ev t e o v -> ev t e' o v.
  Proof using.
    intros Hs H. revert e' Hs. revert e o v H. apply (ev_ind ctl content sem addr imp t (fun e o v => forall e', esub e e' -> ev t e' o v)).
    intros e o v (w & Hw & He) e' Hs. apply ev_fold. exists w. split; [done|].
    assert (Hl : forall l vs, Forall2 (fun o v => ev t e o v /\ (forall e', esub e e' -> ev t e' o v)) l vs -> Forall2 (ev t e') l vs).
    { intros l vs Hl. eapply Forall2_impl; [exact Hl|]. cbn. intros x y [_ H]. auto. }
    assert (Hloop : forall p q lvs vs v, loop ctl (fun e o v => ev t e o v /\ (forall e', esub e e' -> ev t e' o v)) p q lvs vs v -> loop ctl (ev t) p q lvs vs v).
    { intros p q lvs vs v0 HL. eapply loop_mono; [|exact HL]. by intros ??? [? _]. }
    destruct w; cbn [eqn] in *; auto.
    - destruct He as (vs & ws & H1 & H2). exists vs, ws. auto.
    - destruct He as (pv & b & x & c & es & vs & [_ H1] & H2 & H3 & H4 & [H5 _]). exists pv, b, x, c, es, vs. repeat split; auto.
    - destruct He as (vs & H1 & H2). exists vs. auto.
    - destruct He as [H1 _]. done.
  Qed.
  Lemma esub_refl e : esub e e.
  Proof using. intros a v H. done. Qed.
End Local.

(** the regions of a module *)
Inductive reg (t : region) : region -> Prop :=
  | reg_root : reg t t
  | reg_sub r n r' : reg t r -> n ∈ rnodes r -> r' ∈ nsubs n -> reg t r'.
Lemma rdefs_node r n d : n ∈ rnodes r -> d ∈ ndefs n -> d ∈ rdefs r.
Proof. destruct r. cbn [rnodes]. intros Hn Hd. apply rdefs_unfold. eauto. Qed.
Lemma reg_rdefs t r d : reg t r -> d ∈ rdefs r -> d ∈ rdefs t.
Proof.
  intros H. revert d. induction H as [|r n r' H IH Hn Hr]; intros d Hd; [done|]. apply IH. eapply rdefs_node; [exact Hn|]. destruct n as [id k ins outs subs]. cbn [nsubs] in Hr. apply ndefs_unfold. eauto.
Qed.
Lemma reg_ndefs t r n d : reg t r -> n ∈ rnodes r -> d ∈ ndefs n -> d ∈ defs t.
Proof. intros Hr Hn Hd. unfold defs. apply elem_of_app. right. eapply reg_rdefs; [exact Hr|]. by eapply rdefs_node. Qed.
Lemma wf_region_node r n : wf_region r -> n ∈ rnodes r -> wf_node n.
Proof. destruct r. intros [Hw _] Hn. apply wf_list_Forall in Hw. rewrite Forall_forall in Hw. auto. Qed.
Lemma wf_node_sub n r : wf_node n -> r ∈ nsubs n -> wf_region r.
Proof. destruct n. intros [_ Hw]%wf_node_unfold Hr. rewrite Forall_forall in Hw. auto. Qed.
Lemma reg_wf t r : wf_region t -> reg t r -> wf_region r.
Proof. intros Hw. induction 1 as [|r n r' H IH Hn Hr]; [done|]. eapply wf_node_sub; [|exact Hr]. by eapply wf_region_node. Qed.
Lemma wf_region_ins r n x : wf_region r -> n ∈ rnodes r -> x ∈ nins n -> x ∈ rargs r ++ own (rnodes r).
Proof. destruct r. intros [Hw _] Hn Hx. apply wf_list_scope in Hw. rewrite Forall_forall in Hw. specialize (Hw n Hn). rewrite Forall_forall in Hw. auto. Qed.
Lemma wf_region_res r x : wf_region r -> x ∈ rres r -> x ∈ rargs r ++ own (rnodes r).
Proof. destruct r. intros [_ Hw] Hx. rewrite Forall_forall in Hw. auto. Qed.
Lemma node_out_def t r n i o : reg t r -> n ∈ rnodes r -> nouts n !! i = Some o -> (o, out_view (nid n) (nkind n) (nins n) (nouts n) (nsubs n) i) ∈ defs t.
Proof. intros Hr Hn Ho. eapply reg_ndefs; [exact Hr | exact Hn|]. destruct n. apply ndefs_unfold. left. apply elem_of_index. eauto. Qed.
Lemma node_arg_def t r n r' i a : reg t r -> n ∈ rnodes r -> r' ∈ nsubs n -> rargs r' !! i = Some a -> (a, arg_view (nkind n) (nins n) (nouts n) r' i) ∈ defs t.
Proof. intros Hr Hn Hr' Ha. eapply reg_ndefs; [exact Hr | exact Hn|]. destruct n. apply ndefs_unfold. right. exists r'. split; [done|]. left. apply elem_of_index. eauto. Qed.
(** every equation is that of an import, of an output or of an argument *)
Lemma defs_inv t o w : (o, w) ∈ defs t -> (o ∈ rargs t /\ w = VImport o) \/ exists r n, reg t r /\ n ∈ rnodes r /\
  ((exists i, nouts n !! i = Some o /\ w = out_view (nid n) (nkind n) (nins n) (nouts n) (nsubs n) i) \/
   (exists r' i, r' ∈ nsubs n /\ rargs r' !! i = Some o /\ w = arg_view (nkind n) (nins n) (nouts n) r' i)).
Proof.
  unfold defs. rewrite elem_of_app. intros [H|H].
  - left. apply elem_of_list_In, in_map_iff in H as (a & [= <- <-] & Ha%elem_of_list_In). done.
  - right.
    assert (G : (forall n, (o, w) ∈ ndefs n -> forall r, reg t r -> n ∈ rnodes r -> exists r n, reg t r /\ n ∈ rnodes r /\
      ((exists i, nouts n !! i = Some o /\ w = out_view (nid n) (nkind n) (nins n) (nouts n) (nsubs n) i) \/
       (exists r' i, r' ∈ nsubs n /\ rargs r' !! i = Some o /\ w = arg_view (nkind n) (nins n) (nouts n) r' i))) /\
      (forall r, (o, w) ∈ rdefs r -> reg t r -> exists r n, reg t r /\ n ∈ rnodes r /\
      ((exists i, nouts n !! i = Some o /\ w = out_view (nid n) (nkind n) (nins n) (nouts n) (nsubs n) i) \/
       (exists r' i, r' ∈ nsubs n /\ rargs r' !! i = Some o /\ w = arg_view (nkind n) (nins n) (nouts n) r' i)))).
    { apply tree_ind.
      - intros id k ins outs subs IH Hd r Hr Hn. apply ndefs_unfold in Hd as [Hd|(r' & Hr' & [Hd|Hd])].
        + apply elem_of_index in Hd. exists r, (Node id k ins outs subs). split; [done|]. split; [done|]. left. exact Hd.
        + apply elem_of_index in Hd as (i & Hi & ->). exists r, (Node id k ins outs subs). split; [done|]. split; [done|]. right. exists r', i. done.
        + rewrite Forall_forall in IH. apply (IH r' Hr' Hd). by eapply reg_sub.
      - intros args res ns IH (n & Hn & Hd)%rdefs_unfold Hr. rewrite Forall_forall in IH. exact (IH n Hn Hd _ Hr Hn). }
    apply (proj2 G t H). constructor.
Qed.

Section Restrict.
  Context {V : Type} (ctl : V -> option nat) (content : V -> V) (sem : nat -> list V -> option (list V)) (addr imp : nat -> V).
  Local Notation ev := (ev ctl content sem addr imp).
  Definition restrict (A : list oid) (e : env (V:=V)) : env := fun a => if decide (a ∈ A) then e a else None.
  Lemma ev_restrict t e o v : wf_region t -> NoDup (defs t).*1 -> ev t e o v -> forall r, reg t r -> o ∈ rargs r ++ own (rnodes r) -> ev t (restrict (rargs r) e) o v.
  Proof using.
    intros Hw Hnd H. revert e o v H. apply (ev_ind ctl content sem addr imp t (fun e o v => forall r, reg t r -> o ∈ rargs r ++ own (rnodes r) -> ev t (restrict (rargs r) e) o v)).
    intros e o v (w & Hd & He) r Hr Ho. apply ev_fold. exists w. split; [done|].
    set (R := fun e o v => ev t e o v /\ (forall r, reg t r -> o ∈ rargs r ++ own (rnodes r) -> ev t (restrict (rargs r) e) o v)) in He.
    assert (HR : forall e o v, R e o v -> ev t e o v) by (by intros ??? [? _]).
    assert (Hl : forall l vs, (forall x, x ∈ l -> x ∈ rargs r ++ own (rnodes r)) -> Forall2 (R e) l vs -> Forall2 (ev t (restrict (rargs r) e)) l vs).
    { intros l vs Hx Hl. induction Hl as [|x y l vs [_ Hxy] Hl IH]; constructor; [apply Hxy; [done | apply Hx; left] | apply IH; intros z Hz; apply Hx; by right]. }
    apply elem_of_app in Ho as [Ho|Ho].
    - assert (Hrestr : e o = Some v -> restrict (rargs r) e o = Some v) by (intros; unfold restrict; by rewrite decide_True).
      assert (Ha : match w with VSimple _ _ _ _ _ | VGamma _ _ | VTheta _ _ _ _ => False | _ => True end).
      { destruct Hr as [|r n r' Hr Hn Hr'].
        - assert (w = VImport o) as ->; [|done]. eapply defs_fun; [done | exact Hd|]. unfold defs. apply elem_of_app. left. apply elem_of_list_In, in_map_iff. exists o. split; [done | by apply elem_of_list_In].
        - apply elem_of_list_lookup in Ho as [i Hi]. pose proof (node_arg_def t r n r' i o Hr Hn Hr' Hi) as Hd2. rewrite (defs_fun _ _ _ _ Hnd Hd Hd2). unfold arg_view. destruct (nkind n); repeat case_decide; done. }
      destruct w; cbn [eqn] in *; auto; try done.
    - apply elem_of_own in Ho as (n & Hn & Ho). apply elem_of_list_lookup in Ho as [i Hi]. pose proof (node_out_def t r n i o Hr Hn Hi) as Hd2. pose proof (defs_fun _ _ _ _ Hnd Hd Hd2) as ->. clear Hd2.
      pose proof (reg_wf t r Hw Hr) as Hwr. pose proof (wf_region_node _ _ Hwr Hn) as Hwn. assert (Hins : forall x, x ∈ nins n -> x ∈ rargs r ++ own (rnodes r)) by (intros x Hx; by eapply wf_region_ins).
      assert (Hnth : forall j, j < length (nins n) -> nth j (nins n) 0 ∈ rargs r ++ own (rnodes r)) by (intros j Hj; apply Hins; by apply nth_in).
      destruct n as [id k ins outs subs]. cbn [nid nkind nins nouts nsubs] in *. apply wf_node_unfold in Hwn as [Hsh _]. destruct k; cbn [out_view eqn shape] in *; auto.
      + destruct He as (vs & ws & H1 & H2). exists vs, ws. auto.
      + destruct He as (vs & ws & H1 & H2). exists vs, ws. auto.
      + destruct He as (pv & b & x & c & es & vs & [_ H1] & H2 & H3 & H4 & [H5 _]). exists pv, b, x, c, es, vs. repeat split; auto.
        * apply H1; [done|]. apply Hnth. destruct Hsh as [Hne _]. destruct ins; [done | cbn; lia].
        * apply Hl; [|done]. intros z Hz. apply Hins. rewrite list_lookup_fmap in H3. destruct (subs !! b) as [rb|]; [|done]. cbn in H3. unfold gamma_branch in H3. injection H3 as <- <- <-.
          apply elem_of_list_fmap in Hz as ([a y] & -> & Hz). apply elem_of_list_lookup in Hz as [j Hj]. apply lookup_zip_with_Some in Hj as (a' & y' & [= <- <-] & _ & Hy). cbn. rewrite lookup_tail in Hy. by eapply elem_of_list_lookup_2.
      + destruct He as (vs & H1 & H2). exists vs. split.
        * apply Hl; [|done]. intros z Hz. apply Hins. apply elem_of_list_fmap in Hz as ([a y] & -> & Hz). apply elem_of_list_fmap in Hz as ([[a' y'] q] & [= -> ->] & Hz). unfold loop_vars in Hz.
          apply elem_of_list_lookup in Hz as [j Hj]. apply lookup_zip_with_Some in Hj as ([a1 y1] & q1 & [= <- <- <-] & Hj & _). apply lookup_zip_with_Some in Hj as (a2 & y2 & [= <- <-] & _ & Hy). cbn. by eapply elem_of_list_lookup_2.
        * eapply loop_mono; [|exact H2]. apply HR.
  Qed.
End Restrict.
