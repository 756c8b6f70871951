(** The operations on the congruence sets. *)
From stdpp Require Import base list list_numbers fin_sets gmap.
From Verif.Rvsdg Require Import Model Spec.
From Verif.Ivr Require Import Model.
From Verif.Cne Require Import Model.

(** every set has a leader, which is one of its members *)
Definition SW (σ : cstate) : Prop :=
  (forall o i, cmap σ !! o = Some i -> is_Some (leads σ !! i)) /\ (forall i l, leads σ !! i = Some l -> cmap σ !! l = Some i).
Definition marked (σ : cstate) (o : oid) : Prop := is_Some (cmap σ !! o).
(** σ' differs from σ on K only; no set disappears *)
Definition ext (σ σ' : cstate) (K : list oid) : Prop := leads σ `prefix_of` leads σ' /\ forall o, o ∉ K -> cmap σ' !! o = cmap σ !! o.

Lemma SW0 : SW cstate0.
Proof. split; done. Qed.
Lemma ext_refl σ K : ext σ σ K.
Proof. split; done. Qed.
Lemma ext_trans σ1 σ2 σ3 K : ext σ1 σ2 K -> ext σ2 σ3 K -> ext σ1 σ3 K.
Proof. intros [H1 H2] [G1 G2]. split; [by etrans|]. intros o Ho. rewrite G2, H2; done. Qed.
Lemma ext_weaken σ σ' K K' : (forall x, x ∈ K -> x ∈ K') -> ext σ σ' K -> ext σ σ' K'.
Proof. intros Hs [H1 H2]. split; [done|]. intros o Ho. apply H2. auto. Qed.
Lemma lead_Some σ o i l : cmap σ !! o = Some i -> leads σ !! i = Some l -> lead σ o = l.
Proof. intros H1 H2. unfold lead. rewrite H1. cbn. by rewrite H2. Qed.
Lemma lead_None σ o : cmap σ !! o = None -> lead σ o = o.
Proof. intros H. unfold lead. by rewrite H. Qed.
Lemma lead_set σ o i : SW σ -> cmap σ !! o = Some i -> leads σ !! i = Some (lead σ o).
Proof. intros [H1 _] H. destruct (H1 _ _ H) as [l Hl]. by rewrite (lead_Some _ _ _ _ H Hl). Qed.
Lemma cmap_lead σ o : SW σ -> cmap σ !! lead σ o = cmap σ !! o.
Proof. intros Hw. destruct (cmap σ !! o) as [i|] eqn:E; [|by rewrite (lead_None _ _ E)]. pose proof (lead_set _ _ _ Hw E) as H. by apply Hw in H. Qed.
Lemma lead_idem σ o : SW σ -> lead σ (lead σ o) = lead σ o.
Proof. intros Hw. unfold lead at 1. rewrite cmap_lead by done. destruct (cmap σ !! o) as [i|] eqn:E; [|done]. cbn. by rewrite (lead_set _ _ _ Hw E). Qed.
Lemma lead_inj σ x y : SW σ -> marked σ x -> marked σ y -> lead σ x = lead σ y -> cmap σ !! x = cmap σ !! y.
Proof. intros Hw _ _ H. rewrite <-(cmap_lead σ x Hw), <-(cmap_lead σ y Hw). by rewrite H. Qed.
Lemma lead_cmap σ x y : SW σ -> marked σ x -> cmap σ !! x = cmap σ !! y -> lead σ x = lead σ y.
Proof. intros Hw [i Hi] H. rewrite Hi in H. unfold lead. rewrite Hi, <-H. cbn. by rewrite (lead_set _ _ _ Hw Hi). Qed.
Lemma same_set_lead σ x y : SW σ -> same_set σ x y = true -> marked σ x /\ marked σ y /\ lead σ x = lead σ y.
Proof.
  intros Hw. unfold same_set. destruct (cmap σ !! x) as [i|] eqn:Ex; [|done]. destruct (cmap σ !! y) as [j|] eqn:Ey; [|done]. intros H%bool_decide_eq_true. subst j.
  split; [eexists; done|]. split; [eexists; done|]. apply lead_cmap; [done | eexists; done | by rewrite Ex, Ey].
Qed.
Lemma all_same_set_lead σ l l' : SW σ -> all_same_set σ l l' = true -> lead σ <$> l = lead σ <$> l'.
Proof.
  intros Hw. revert l'. induction l as [|x l IH]; intros [|y l']; try done. cbn [all_same_set]. intros [H1 H2]%andb_true_iff. apply same_set_lead in H1 as (_ & _ & H1); [|done]. rewrite !fmap_cons, H1. f_equal. by apply IH.
Qed.
Lemma ext_lead σ σ' K o : SW σ -> ext σ σ' K -> o ∉ K -> lead σ' o = lead σ o.
Proof.
  intros Hw [H1 H2] Ho. unfold lead. rewrite (H2 o Ho). destruct (cmap σ !! o) as [i|] eqn:E; [|done]. cbn. pose proof (lead_set _ _ _ Hw E) as Hl. rewrite Hl. by rewrite (prefix_lookup _ _ _ _ Hl H1).
Qed.
Lemma ext_marked σ σ' K o : ext σ σ' K -> o ∉ K -> marked σ o -> marked σ' o.
Proof. intros [_ H2] Ho [i Hi]. exists i. by rewrite H2. Qed.

Lemma get_or_create_spec σ o i σ' : SW σ -> get_or_create σ o = (i, σ') ->
  SW σ' /\ ext σ σ' [o] /\ cmap σ' !! o = Some i /\ leads σ' !! i = Some o /\ length (leads σ) <= length (leads σ') /\ (length (leads σ') = length (leads σ) -> σ' = σ /\ cmap σ !! o = Some i).
Proof.
  intros Hw H. unfold get_or_create in H.
  assert (Hnew : (forall j, leads σ !! j <> Some o) -> (length (leads σ), CState (leads σ ++ [o]) (<[o := length (leads σ)]> (cmap σ))) = (i, σ') -> SW σ' /\ ext σ σ' [o] /\ cmap σ' !! o = Some i /\ leads σ' !! i = Some o /\ length (leads σ) <= length (leads σ') /\ (length (leads σ') = length (leads σ) -> σ' = σ /\ cmap σ !! o = Some i)).
  { intros Hno [= <- <-]. destruct Hw as [H1 H2]. cbn [leads cmap]. split; [|split; [|split; [|split; [|split]]]].
    - split; cbn [leads cmap].
      + intros x j Hx. destruct (decide (x = o)) as [->|Hne].
        * rewrite lookup_insert in Hx. injection Hx as <-. apply lookup_lt_is_Some_2. rewrite app_length. cbn. lia.
        * rewrite lookup_insert_ne in Hx by done. destruct (H1 _ _ Hx) as [l Hl]. exists l. by apply lookup_app_l_Some.
      + intros j l Hl. apply lookup_app_Some in Hl as [Hl|[Hj Hl]].
        * assert (l <> o) by (intros ->; by apply (Hno j)). rewrite lookup_insert_ne by done. by apply H2.
        * apply list_lookup_singleton_Some in Hl as [Hj' <-]. rewrite lookup_insert. f_equal. lia.
    - split; cbn [leads cmap]; [by apply prefix_app_r|]. intros x Hx. apply lookup_insert_ne. intros ->. apply Hx. left.
    - apply lookup_insert.
    - by rewrite lookup_app_r, Nat.sub_diag by lia.
    - rewrite app_length. lia.
    - rewrite app_length. cbn. lia. }
  destruct (cmap σ !! o) as [j|] eqn:E.
  - case_decide as Hd.
    + injection H as <- <-. split; [done|]. split; [apply ext_refl|]. split; [done|]. split; [done|]. split; [done|]. done.
    + apply Hnew; [|done]. intros j' Hj'. pose proof (proj2 Hw _ _ Hj') as E'. rewrite E in E'. injection E' as ->. done.
  - apply Hnew; [|done]. intros j' Hj'. pose proof (proj2 Hw _ _ Hj') as E'. rewrite E in E'. done.
Qed.
Lemma add_follower_spec σ i o σ' : SW σ -> is_Some (leads σ !! i) -> add_follower i o σ = Some σ' ->
  SW σ' /\ ext σ σ' [o] /\ leads σ' = leads σ /\ cmap σ' !! o = Some i.
Proof.
  intros Hw Hi H. unfold add_follower in H.
  assert (Hnew : (forall j, leads σ !! j <> Some o) -> Some (CState (leads σ) (<[o := i]> (cmap σ))) = Some σ' -> SW σ' /\ ext σ σ' [o] /\ leads σ' = leads σ /\ cmap σ' !! o = Some i).
  { intros Hno [= <-]. destruct Hw as [H1 H2]. cbn [leads cmap]. split; [|split; [|split; [done | apply lookup_insert]]].
    - split; cbn [leads cmap].
      + intros x j Hx. destruct (decide (x = o)) as [->|Hne]; [rewrite lookup_insert in Hx; by injection Hx as <- | rewrite lookup_insert_ne in Hx by done; eauto].
      + intros j l Hl. assert (l <> o) by (intros ->; by apply (Hno j)). rewrite lookup_insert_ne by done. by apply H2.
    - split; cbn [leads cmap]; [done|]. intros x Hx. apply lookup_insert_ne. intros ->. apply Hx. left. }
  destruct (cmap σ !! o) as [j|] eqn:E.
  - case_decide as Hd; [done|]. apply Hnew; [|done]. intros j' Hj'. pose proof (proj2 Hw _ _ Hj') as E'. rewrite E in E'. injection E' as ->. done.
  - apply Hnew; [|done]. intros j' Hj'. pose proof (proj2 Hw _ _ Hj') as E'. rewrite E in E'. done.
Qed.
(** an output is made the leader of a set, or gets the leader of an output that has one *)
Lemma get_or_create_lead σ o : SW σ -> let σ' := (get_or_create σ o).2 in SW σ' /\ ext σ σ' [o] /\ marked σ' o /\ lead σ' o = o.
Proof.
  intros Hw. cbn zeta. destruct (get_or_create σ o) as [i σ'] eqn:E. apply get_or_create_spec in E as (H1 & H2 & H3 & H4 & _); [|done]. cbn [snd]. split; [done|]. split; [done|]. split; [eexists; done | by eapply lead_Some].
Qed.
Lemma add_follower_lead σ i l o σ' : SW σ -> leads σ !! i = Some l -> add_follower i o σ = Some σ' -> SW σ' /\ ext σ σ' [o] /\ marked σ' o /\ lead σ' o = l.
Proof.
  intros Hw Hl H. apply add_follower_spec in H as (H1 & H2 & H3 & H4); [|done|eexists; done]. split; [done|]. split; [done|]. split; [eexists; done|]. eapply lead_Some; [done | by rewrite H3].
Qed.

Lemma make_leaders_spec l σ : SW σ -> let σ' := make_leaders l σ in SW σ' /\ ext σ σ' l /\ forall o, o ∈ l -> marked σ' o /\ lead σ' o = o.
Proof.
  cbn zeta. unfold make_leaders. revert σ. induction l as [|x l IH]; intros σ Hw; cbn [foldl].
  - split; [done|]. split; [apply ext_refl|]. by intros o ?%elem_of_nil.
  - destruct (get_or_create_lead σ x Hw) as (H1 & H2 & H3 & H4). destruct (IH _ H1) as (G1 & G2 & G3). split; [done|]. split.
    + eapply ext_trans; [eapply ext_weaken; [|exact H2] | eapply ext_weaken; [|exact G2]]; intros y; [rewrite elem_of_list_singleton; intros ->; left | intros; by right].
    + intros o [->|Ho]%elem_of_cons; [|auto]. destruct (decide (x ∈ l)) as [Hin|Hni]; [auto|]. split; [eapply ext_marked; eauto|]. rewrite (ext_lead _ _ _ _ H1 G2 Hni). done.
Qed.
Lemma follow_list (l : list (oid * oid)) σ σ' : SW σ -> NoDup l.*2 -> (forall x, x ∈ l.*1 -> x ∉ l.*2) ->
  foldl (fun σ '(l, o) => σ ← σ; i ← cmap σ !! l; add_follower i o σ) (Some σ) l = Some σ' ->
  SW σ' /\ ext σ σ' l.*2 /\ forall x o, (x, o) ∈ l -> marked σ x /\ marked σ' o /\ lead σ' o = lead σ x.
Proof.
  revert σ. induction l as [|[x o] l IH]; intros σ Hw Hn Hd H; cbn [foldl] in H.
  - injection H as <-. split; [done|]. split; [apply ext_refl|]. by intros x o ?%elem_of_nil.
  - rewrite fmap_cons in Hn, Hd. cbn [snd] in Hn. apply NoDup_cons in Hn as [Hn1 Hn2]. cbn [mbind option_bind] in H.
    assert (Hf : forall l, foldl (fun σ '(l, o) => σ ← σ; i ← cmap σ !! l; add_follower i o σ) (@None cstate) l = None) by (clear; induction l as [|[] l IH]; done).
    destruct (cmap σ !! x) as [i|] eqn:Ei; cbn [mbind option_bind] in H; [|by rewrite Hf in H]. destruct (add_follower i o σ) as [σ1|] eqn:E1; [|by rewrite Hf in H].
    pose proof (lead_set _ _ _ Hw Ei) as Hl. destruct (add_follower_lead _ _ _ _ _ Hw Hl E1) as (H1 & H2 & H3 & H4).
    apply IH in H as (G1 & G2 & G3); [|done|done|]. 2:{ intros y Hy Hy2. apply (Hd y); [by right | by right]. }
    split; [done|]. split.
    + eapply ext_trans; [eapply ext_weaken; [|exact H2] | eapply ext_weaken; [|exact G2]]; intros y; [rewrite elem_of_list_singleton; intros ->; left | intros; by right].
    + intros x' o' [[= -> ->]|Hin]%elem_of_cons.
      * split; [eexists; done|]. split; [by eapply ext_marked|]. by rewrite (ext_lead _ _ _ _ H1 G2 Hn1).
      * destruct (G3 _ _ Hin) as (K1 & K2 & K3). assert (Hne : x' <> o). { intros ->. apply (Hd o); [apply elem_of_cons; right; apply elem_of_list_fmap; exists (o, o'); done | left]. }
        assert (Hne' : x' ∉ [o]) by (by rewrite elem_of_list_singleton). split; [|split; [done|]].
        -- destruct H2 as [_ H2]. unfold marked in K1 |- *. by rewrite <-(H2 x' Hne').
        -- rewrite K3. by apply (ext_lead _ _ _ _ Hw H2).
Qed.
Lemma follow_node_spec m n σ σ' : SW σ -> NoDup (nouts n) -> (forall x, x ∈ nouts m -> x ∉ nouts n) -> follow_node m n σ = Some σ' ->
  length (nouts m) = length (nouts n) /\ SW σ' /\ ext σ σ' (nouts n) /\ forall k x o, nouts m !! k = Some x -> nouts n !! k = Some o -> marked σ x /\ marked σ' o /\ lead σ' o = lead σ x.
Proof.
  intros Hw Hn Hd H. unfold follow_node in H. case_decide as Hl; [|done].
  assert (Hz1 : (zip (nouts m) (nouts n)).*1 = nouts m) by (apply fst_zip; lia). assert (Hz2 : (zip (nouts m) (nouts n)).*2 = nouts n) by (apply snd_zip; lia).
  apply follow_list in H as (H1 & H2 & H3); [|done|by rewrite Hz2|by rewrite Hz1, Hz2]. rewrite Hz2 in H2. split; [done|]. split; [done|]. split; [done|]. intros k x o Hx Ho. apply H3. apply elem_of_list_lookup. exists k. apply lookup_zip_with_Some. eauto.
Qed.
