(** The pass as a whole. *)
From stdpp Require Import base list list_numbers fin_sets gmap relations.
From Verif.Rvsdg Require Import Model Spec Sem Wf WfFacts ListFacts Det.
From Verif.Dne Require Import Model Spec ProofsMark Rel ProofsList ProofsNode ProofsGamma ProofsTheta ProofsLambda ProofsIds ProofsShrink ProofsAlive.

Lemma defs_keys_eq t : (defs t).*1 = rargs t ++ rkeys t.
Proof. unfold defs. rewrite fmap_app, <-list_fmap_compose. unfold rkeys. f_equal. induction (rargs t); cbn; [done | by f_equal]. Qed.

Lemma NoDup_sub {A} (l k : list A) : NoDup k -> l `sublist_of` k -> NoDup l.
Proof.
  intros Hn Hs. induction Hs as [|x l k Hs IH|x l k Hs IH]; [done| |]; apply NoDup_cons in Hn as [Hx Hn]; [|auto]. apply NoDup_cons. split; [|auto].
  intros H. apply Hx. eapply elem_of_submseteq; [exact H|]. by apply sublist_submseteq.
Qed.
Lemma dne_main t : wf t -> exists t' c, dne t = Some t' /\ closed t c /\ snd_ctx t c /\ wf t' /\
  Forall2 (rsl t c) (rres t) (rres t') /\ (forall o w', (o, w') ∈ defs t' -> exists w, (o, w) ∈ defs t /\ vrel t c w w') /\
  (forall m, m ∈ nodes_of t' -> exists o, o ∈ nouts m /\ needed t o) /\ (forall a, a ∈ rargs t' <-> a ∈ rargs t /\ a ∈ couts c).
Proof.
  intros (Hw & Hnd & Hids). destruct (mark_region_ok t Hnd (same_id t Hids)) as (c & Hm & Hcl & Hlv & Hs).
  assert (Hkeys : forall o w x, (o, w) ∈ defs t -> x ∈ refs w -> x ∈ (defs t).*1) by (intros; by eapply wf_refs).
  destruct (all_steps t c Hnd Hcl Hkeys) as [_ HQ].
  assert (Himp : forall a, a ∈ rargs t -> (a, VImport a) ∈ defs t).
  { intros a Ha. unfold defs. apply elem_of_app. left. apply elem_of_list_In, in_map_iff. exists a. split; [done|]. by apply elem_of_list_In. }
  assert (Hres : Forall (liveo t c) (rres t)).
  { rewrite Forall_forall in Hlv |- *. intros x Hx. apply (lvl_liveo t c Hnd); [by apply wf_res | auto]. }
  destruct (HQ t Hw) with (res := rres t) (ex := [] : list nat) as (ns' & s & Hsw & Hr1 & Hli & Hwl & Hr2 & Hr3 & Hsim).
  { intros d Hd. unfold defs. apply elem_of_app. by right. }
  { pose proof Hnd as Hnd2. by rewrite defs_keys_eq in Hnd2. }
  { intros x Hx. eapply (nonsimple_not_byp t c Hnd); [by apply Himp | done]. }
  { by apply zok_wf. }
  { destruct t as [args res ns]. by destruct Hw. }
  { eapply Forall_impl; [exact Hres|]. auto. }
  { by intros x ?%elem_of_nil. }
  assert (Hr3' : Forall (liveo t c) (s <$> rres t)). { eapply Forall_impl; [exact Hr3|]. cbn. intros x [?|?%elem_of_nil]; done. }
  assert (Hal : forall a, a ∈ rargs t -> liveo t c a <-> alive_out c a = true).
  { intros a Ha. unfold alive_out. rewrite bool_decide_eq_true. split; [by apply (live_couts t c Hnd a _ (Himp a Ha))|]. intros H. exists (VImport a). auto. }
  assert (Hused : forall x, is_used x ns' (s <$> rres t) = true -> liveo t c x).
  { intros x Hx. apply is_used_iff in Hx as [Hx|(n & Hn & Hx)].
    - rewrite Forall_forall in Hr3'. auto.
    - rewrite Forall_forall in Hli. specialize (Hli _ Hn). rewrite Forall_forall in Hli. auto. }
  set (p := fun i => negb (alive_out c (nth i (rargs t) 0))).
  assert (Hkeep : forall x, x ∈ rargs t -> liveo t c x -> x ∈ drop_at p (rargs t)).
  { intros x Hx Hl. apply elem_of_list_lookup in Hx as [i Hi]. apply drop_at_elem. exists i. split; [done|]. unfold p. rewrite (nth_elem _ _ _ _ Hi).
    rewrite (proj1 (Hal x (elem_of_list_lookup_2 _ _ _ Hi)) Hl). done. }
  exists (Region (drop_at p (rargs t)) (s <$> rres t) ns'), c.
  assert (Hdne : sweep_rvsdg c t = Some (Region (drop_at p (rargs t)) (s <$> rres t) ns')).
  { unfold sweep_rvsdg. rewrite Hsw. cbn [mbind option_bind rargs]. apply remove_arguments_ok. intros i a Hi Hp. unfold p in Hp. rewrite (nth_elem _ _ _ _ Hi) in Hp.
    destruct (is_used a ns' (s <$> rres t)) eqn:E; [|done]. apply Hused in E. apply (Hal a (elem_of_list_lookup_2 _ _ _ Hi)) in E. by rewrite E in Hp. }
  split; [unfold dne; rewrite Hm; exact Hdne|]. split; [done|]. split; [done|].
  assert (Hwf' : wf_region (Region (drop_at p (rargs t)) (s <$> rres t) ns')).
  { split.
    - eapply wf_list_shrink; [exact Hwl|]. intros n x Hn Hx Ha. apply Hkeep; [done|]. rewrite Forall_forall in Hli. specialize (Hli _ Hn). rewrite Forall_forall in Hli. auto.
    - rewrite Forall_forall in Hr2, Hr3' |- *. intros x Hx. specialize (Hr2 x Hx). apply elem_of_app in Hr2 as [H|H]; apply elem_of_app; [left; auto | by right]. }
  assert (Hsub : sub_region (Region (rargs t) (s <$> rres t) ns') t) by (eapply (proj2 (sweep_sub c)); exact Hsw).
  assert (Hsub' : sub_region (Region (drop_at p (rargs t)) (s <$> rres t) ns') t).
  { eapply sub_region_trans; [|exact Hsub]. eapply (sub_args p). done. }
  destruct Hsub' as [Hs1 Hs2].
  split; [split; [done|split]|].
  { rewrite defs_keys_eq. eapply NoDup_sub; [|exact Hs1]. by rewrite <-defs_keys_eq. }
  { eapply NoDup_sub; [exact Hids | exact Hs2]. }
  split; [|split; [|split]].
  - cbn [rres]. apply Forall2_fmap_r, Forall_Forall2_diag. rewrite Forall_forall in Hr1, Hres |- *. auto.
  - intros o w' Hw'. unfold defs in Hw'. cbn [rargs rdefs] in Hw'. apply elem_of_app in Hw' as [Hw'|Hw'].
    + apply elem_of_list_In, in_map_iff in Hw' as (a & [= <- <-] & Ha%elem_of_list_In). exists (VImport a). split; [|apply v_import]. apply Himp. by eapply drop_at_subset.
    + destruct (Hsim _ _ Hw') as (w & H & ?). exists w. split; [|done]. unfold defs. apply elem_of_app. by right.
  - intros m Hmm. eapply (proj2 (sweep_useful t c Hids Hs) t); [|exact Hsw|].
    + split; [intros d Hd; unfold defs; apply elem_of_app; by right | done].
    + apply nodes_of_unfold in Hmm. by apply nodes_of_unfold.
  - intros a. cbn [rargs]. split.
    + intros (i & Hi & Hp)%drop_at_elem. pose proof (elem_of_list_lookup_2 _ _ _ Hi) as Ha. split; [done|]. unfold p in Hp. rewrite (nth_elem _ _ _ _ Hi) in Hp. apply negb_false_iff in Hp. by apply bool_decide_eq_true in Hp.
    + intros [Ha Hc]. apply Hkeep; [done|]. apply Hal; [done|]. by apply bool_decide_eq_true.
Qed.
