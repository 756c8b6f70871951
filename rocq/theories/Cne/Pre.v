(** What marking a region relies on when the region was marked before: a theta body is marked again and again. *)
From stdpp Require Import base list list_numbers fin_sets gmap.
From Verif.Rvsdg Require Import Model Spec Sem Wf WfFacts Args Divert Local.
From Verif.Dne Require Import Model ProofsShrink.
From Verif.Ivr Require Import Model ProofsMain.
From Verif.Cne Require Import Model Spec ProofsSem ProofsState Just.

(** the outputs of a simple node follow those of one node *)
Definition cons (s : oid -> oid) (ns : list node) (n : node) : Prop := (forall o, o ∈ nouts n -> s o = o) \/
  exists m, m ∈ ns /\ is_simple m = true /\ same_op (nkind n) (nkind m) = true /\ forall k o, nouts n !! k = Some o -> nouts m !! k = Some (s o).
(** a subregion: not marked yet, or its congruences are justified *)
Definition sub_done (σ : cstate) (r : region) : Prop := (forall a, a ∈ rargs r -> marked σ a /\ lead σ a ∈ rargs r) /\ (dok_region (lead σ) r -> jregion (lead σ) r).
Definition fresh_args (σ : cstate) (r : region) : Prop := forall a, a ∈ rargs r -> cmap σ !! a = None.
Definition theta_done (σ : cstate) (outs : list oid) (r : region) : Prop := jposts (lead σ) r /\
  forall i o x, outs !! i = Some o -> rres r !! S i = Some x -> lead σ o = o \/
    (exists j y, outs !! j = Some (lead σ o) /\ rres r !! S j = Some y /\ lead σ x = lead σ y) \/ (exists j, jinv (lead σ) r x j).
Fixpoint pre_node (σ : cstate) (n : node) : Prop :=
  let 'Node id k ins outs subs := n in
  match k with
  | Simple _ | Load _ => True
  | Delta => forall r o, r ∈ subs -> o ∈ subkeys r -> lead σ o = o
  | _ => fold_right and True (map (pre_region σ) subs) /\ Forall (fun r => fresh_args σ r \/ sub_done σ r) subs /\
      match k with Theta => fresh_args σ (nth 0 subs region0) \/ theta_done σ outs (nth 0 subs region0) | _ => True end
  end
with pre_region (σ : cstate) (r : region) : Prop :=
  let 'Region args res ns := r in
  Forall (fun n => is_simple n = true -> cons (lead σ) ns n) ns /\ fold_right and True (map (pre_node σ) ns).

Definition agc (σ σ' : cstate) (l : list oid) : Prop := forall x, x ∈ l -> cmap σ' !! x = cmap σ !! x /\ lead σ' x = lead σ x.
Lemma agc_agree σ σ' l : agc σ σ' l -> agree (lead σ) (lead σ') l.
Proof. intros H x Hx. by apply H. Qed.
Lemma agc_agree_sym σ σ' l : agc σ σ' l -> agree (lead σ') (lead σ) l.
Proof. intros H x Hx. symmetry. by apply H. Qed.
Lemma agc_sub σ σ' l k : (forall x, x ∈ k -> x ∈ l) -> agc σ σ' l -> agc σ σ' k.
Proof. intros Hs H x Hx. auto. Qed.
Lemma ext_agc σ σ' K l : SW σ -> ext σ σ' K -> (forall x, x ∈ l -> x ∉ K) -> agc σ σ' l.
Proof. intros Hw He Hd x Hx. split; [apply He; auto | eapply ext_lead; eauto]. Qed.
Lemma agc_trans σ1 σ2 σ3 l : agc σ1 σ2 l -> agc σ2 σ3 l -> agc σ1 σ3 l.
Proof. intros H1 H2 x Hx. destruct (H1 x Hx) as [A B], (H2 x Hx) as [C D]. split; congruence. Qed.
Lemma agc_refl σ l : agc σ σ l.
Proof. by intros x _. Qed.

Lemma cons_ext s s' ns n : agree s s' (nouts n) -> cons s ns n -> cons s' ns n.
Proof.
  intros Ha [H|(m & Hm & H1 & H2 & H3)]; [left; intros o Ho; rewrite Ha; auto | right]. exists m. split; [done|]. split; [done|]. split; [done|]. intros k o Ho. rewrite (Ha o); [auto | by eapply elem_of_list_lookup_2].
Qed.
Lemma sub_done_ext σ σ' r : wf_region r -> agc σ σ' (subkeys r) -> sub_done σ r -> sub_done σ' r.
Proof.
  intros Hw Ha [H1 H2]. split.
  - intros a Hin. destruct (Ha a) as [E1 E2]; [unfold subkeys; apply elem_of_app; by left|]. unfold marked. rewrite E1, E2. by apply H1.
  - intros Hd. apply (proj2 (jext (lead σ) (lead σ')) r Hw); [by apply agc_agree|]. apply H2. apply (proj2 (dext (lead σ') (lead σ)) r); [by apply agc_agree_sym | done].
Qed.
Lemma fresh_ext σ σ' r : agc σ σ' (subkeys r) -> fresh_args σ r -> fresh_args σ' r.
Proof. intros Ha H a Hin. destruct (Ha a) as [E _]; [unfold subkeys; apply elem_of_app; by left|]. rewrite E. auto. Qed.
Lemma jposts_ext s s' r : wf_region r -> agree s s' (subkeys r) -> jposts s r -> jposts s' r.
Proof.
  intros Hw Ha H i j a b x y H1 H2 He Hx Hy. assert (Hres : forall z l, rres r !! l = Some z -> s' z = s z) by (intros z l Hz; apply Ha; apply res_subkeys; [done | by eapply elem_of_list_lookup_2]).
  assert (Harg : forall z l, rargs r !! l = Some z -> s' z = s z) by (intros z l Hz; apply Ha; unfold subkeys; apply elem_of_app; left; by eapply elem_of_list_lookup_2).
  rewrite (Harg _ _ H1), (Harg _ _ H2) in He. rewrite (Hres _ _ Hx), (Hres _ _ Hy). exact (H i j a b x y H1 H2 He Hx Hy).
Qed.
Lemma jinv_ext s s' r x i j : wf_region r -> agree s s' (subkeys r) -> rres r !! i = Some x -> jinv s r x j -> jinv s' r x j.
Proof.
  intros Hw Ha Hx (y & H1 & H2 & H3). assert (Hres : forall z l, rres r !! l = Some z -> s' z = s z) by (intros z l Hz; apply Ha; apply res_subkeys; [done | by eapply elem_of_list_lookup_2]).
  exists y. rewrite (Hres _ _ Hx), (Hres _ _ H2). done.
Qed.
Lemma theta_done_ext σ σ' outs r : wf_region r -> agc σ σ' (subkeys r) -> agc σ σ' outs -> theta_done σ outs r -> theta_done σ' outs r.
Proof.
  intros Hw Ha Ho [H1 H2]. apply agc_agree in Ha, Ho. split; [by eapply jposts_ext|]. intros i o x Hi Hx. rewrite (Ho o) by (by eapply elem_of_list_lookup_2). destruct (H2 i o x Hi Hx) as [H|[(j & y & Hj & Hy & H)|(j & H)]]; [by left | right; left | right; right].
  - exists j, y. split; [done|]. split; [done|]. rewrite !Ha; [done | |]; apply res_subkeys; try done; by eapply elem_of_list_lookup_2.
  - exists j. by eapply jinv_ext.
Qed.
Lemma pre_ext σ σ' : (forall n, wf_node n -> agc σ σ' (ndefs n).*1 -> pre_node σ n -> pre_node σ' n) /\ (forall r, wf_region r -> agc σ σ' (rdefs r).*1 -> pre_region σ r -> pre_region σ' r).
Proof.
  apply tree_ind.
  - intros id k ins outs subs IH Hw Ha H. apply wf_node_unfold in Hw as [Hsh Hw]. rewrite Forall_forall in IH, Hw.
    assert (Hsk : forall r, r ∈ subs -> agc σ σ' (subkeys r)). { intros r Hr. eapply agc_sub; [|exact Ha]. intros x Hx. by eapply (subkeys_nkeys (Node id k ins outs subs)). }
    assert (Hsd : forall r, r ∈ subs -> agc σ σ' (rdefs r).*1). { intros r Hr. eapply agc_sub; [|by apply Hsk]. intros x Hx. unfold subkeys. apply elem_of_app. by right. }
    assert (Hout : agc σ σ' outs). { eapply agc_sub; [|exact Ha]. intros x Hx. by apply (nouts_nkeys (Node id k ins outs subs)). }
    assert (HS : fold_right and True (map (pre_region σ) subs) /\ Forall (fun r => fresh_args σ r \/ sub_done σ r) subs -> fold_right and True (map (pre_region σ') subs) /\ Forall (fun r => fresh_args σ' r \/ sub_done σ' r) subs).
    { rewrite !fold_and, !Forall_forall. intros [H1 H2]. split; intros r Hr; [apply IH; auto|]. destruct (H2 r Hr) as [H3|H3]; [left; by eapply fresh_ext; [apply Hsk|] | right; eapply sub_done_ext; [auto | by apply Hsk | done]]. }
    destruct k; cbn [pre_node] in *; try done; try (destruct H as (H1 & H2 & _); split; [apply HS; done | split; [apply HS; done | done]]).
    + destruct H as (H1 & H2 & H3). destruct Hsh as (r & -> & _). cbn [nth] in *. split; [apply HS; done|]. split; [apply HS; done|]. destruct H3 as [H3|H3]; [left; eapply fresh_ext; [|exact H3]; apply Hsk; left | right; eapply theta_done_ext; [apply Hw; left | apply Hsk; left | done | done]].
    + intros r o Hr Ho. destruct (Hsk r Hr o Ho) as [_ ->]. by eapply H.
  - intros args res ns IH [Hw _] Ha [H1 H2]. apply wf_list_Forall in Hw. rewrite Forall_forall in IH, Hw, H1. cbn [pre_region]. rewrite fold_and, Forall_forall in H2. rewrite fold_and, !Forall_forall.
    assert (Hk : forall n, n ∈ ns -> agc σ σ' (ndefs n).*1). { intros n Hn. eapply agc_sub; [|exact Ha]. intros x Hx. apply rkeys_iff. eauto. }
    split; intros n Hn; [|apply IH; auto]. intros Hs. eapply cons_ext; [|by apply H1]. apply agc_agree. eapply agc_sub; [|by apply (Hk n)]. intros x. apply nouts_nkeys.
Qed.
(** nothing is marked at the beginning *)
Lemma pre_fresh σ : (forall n, (forall x, x ∈ (ndefs n).*1 -> cmap σ !! x = None) -> pre_node σ n) /\ (forall r, (forall x, x ∈ (rdefs r).*1 -> cmap σ !! x = None) -> pre_region σ r).
Proof.
  apply tree_ind.
  - intros id k ins outs subs IH H. rewrite Forall_forall in IH.
    assert (Hsk : forall r x, r ∈ subs -> x ∈ subkeys r -> cmap σ !! x = None). { intros r x Hr Hx. apply H. by eapply (subkeys_nkeys (Node id k ins outs subs)). }
    assert (Hf : forall r, r ∈ subs -> fresh_args σ r). { intros r Hr a Ha. apply (Hsk r a Hr). unfold subkeys. apply elem_of_app. by left. }
    assert (H1 : fold_right and True (map (pre_region σ) subs)). { rewrite fold_and, Forall_forall. intros r Hr. apply IH; [done|]. intros x Hx. apply (Hsk r x Hr). unfold subkeys. apply elem_of_app. by right. }
    assert (H2 : Forall (fun r => fresh_args σ r \/ sub_done σ r) subs) by (rewrite Forall_forall; auto).
    destruct k; cbn [pre_node]; try done.
    + split; [done|]. split; [done|]. left. destruct subs as [|r subs]; [by intros a ?%elem_of_nil|]. apply Hf. left.
    + intros r o Hr Ho. apply lead_None. by apply (Hsk r).
  - intros args res ns IH H. cbn [pre_region]. rewrite Forall_forall in IH. rewrite fold_and, !Forall_forall. split; intros n Hn.
    + intros _. left. intros o Ho. apply lead_None. apply H. apply rkeys_iff. exists n. split; [done | by apply nouts_nkeys].
    + apply IH; [done|]. intros x Hx. apply H. apply rkeys_iff. eauto.
Qed.
