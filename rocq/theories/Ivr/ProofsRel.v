(** The pass relates every equation to the one before, up to outputs that only pass a value on. *)
From stdpp Require Import base list list_numbers fin_sets gmap.
From Verif.Rvsdg Require Import Model Spec Sem Wf WfFacts ListFacts Args Chase.
From Verif.Dne Require Import Model ProofsList ProofsShrink.
From Verif.Ivr Require Import Model.

Section Rel.
  Context (D : oid * view -> Prop).
  Local Notation chase := (chase D).
  Definition rrel (r r' : region) : Prop := rargs r' = rargs r /\ Forall2 chase (rres r) (rres r') /\ forall o w', (o, w') ∈ rdefs r' -> exists w, (o, w) ∈ rdefs r /\ vrel D w w'.
  Definition nrel (n n' : node) : Prop := nid n' = nid n /\ nkind n' = nkind n /\ nouts n' = nouts n /\ Forall2 chase (nins n) (nins n') /\ Forall2 rrel (nsubs n) (nsubs n').

  Lemma chase_list_refl l : Forall2 chase l l.
  Proof using. induction l; constructor; [constructor | done]. Qed.
  Lemma vrel_refl w : vrel D w w.
  Proof using.
    destruct w; constructor; try apply chase_list_refl; try constructor.
    - induction brs as [|[[r c] es] brs IH]; constructor; [|done]. split; [constructor|]. split; [done|]. cbn. clear. induction es as [|[a y] es IH]; constructor; [split; [done | constructor] | done].
    - induction lvs as [|[[a x] y] l IH]; constructor; [|done]. split; [done|]. split; constructor.
  Qed.
  Lemma rrel_refl r : rrel r r.
  Proof using. split; [done|]. split; [apply chase_list_refl|]. intros o w H. exists w. split; [done | apply vrel_refl]. Qed.
  Lemma rrel_refl_list l : Forall2 rrel l l.
  Proof using. induction l; constructor; [apply rrel_refl | done]. Qed.
  Lemma nrel_refl n : nrel n n.
  Proof using. split; [done|]. split; [done|]. split; [done|]. split; [apply chase_list_refl | apply rrel_refl_list]. Qed.
  Lemma chase_nth l l' i : Forall2 chase l l' -> chase (nth i l 0) (nth i l' 0).
  Proof using. intros H. revert i. induction H as [|x y l l' Hx H IH]; intros i; destruct i; cbn [nth]; try constructor; auto. Qed.
  Lemma rrel_nth l l' i : Forall2 rrel l l' -> rrel (nth i l region0) (nth i l' region0).
  Proof using. intros H. revert i. induction H as [|x y l l' Hx H IH]; intros i; destruct i; cbn [nth]; auto using rrel_refl. Qed.
  Lemma chase_tail l l' : Forall2 chase l l' -> Forall2 chase (tail l) (tail l').
  Proof using. destruct 1; [constructor | done]. Qed.
  Lemma zip_es (args l : list oid) l' : Forall2 chase l l' -> Forall2 (fun d d' : oid * oid => d'.1 = d.1 /\ chase d.2 d'.2) (zip args l) (zip args l').
  Proof using. intros H. revert args. induction H as [|x y l l' Hx H IH]; intros [|a args]; cbn; constructor; auto. Qed.
  Lemma zip_lvs (args l : list oid) l' k k' : Forall2 chase l l' -> Forall2 chase k k' -> Forall2 (lrel D) (zip (zip args l) k) (zip (zip args l') k').
  Proof using.
    intros H. revert args k k'. induction H as [|x y l l' Hx H IH]; intros [|a args] k k' Hk; try (by constructor). destruct Hk as [|u u' k k' Hu Hk]; [constructor|]. cbn. constructor; [done | by apply IH].
  Qed.
  Lemma out_rel id k ins ins' outs subs subs' i : Forall2 chase ins ins' -> Forall2 rrel subs subs' -> vrel D (out_view id k ins outs subs i) (out_view id k ins' outs subs' i).
  Proof using.
    intros Hi Hs. pose proof (rrel_nth _ _ 0 Hs) as (Ha & Hr & _). unfold out_view. fold region0. destruct k.
    - by constructor.
    - by constructor.
    - constructor; [by apply chase_nth|]. apply Forall2_fmap. eapply Forall2_impl; [exact Hs|]. intros r r' (Ha' & Hr' & _). unfold gamma_branch. split; [|split].
      + cbn. by apply chase_nth.
      + cbn. by rewrite Ha'.
      + cbn [snd]. rewrite Ha'. by apply zip_es, chase_tail.
    - constructor; [by apply chase_nth | by apply chase_nth|]. unfold loop_vars. rewrite Ha. apply zip_lvs; [done | by apply chase_tail].
    - rewrite Ha. by constructor.
    - constructor. by apply chase_nth.
    - by constructor.
  Qed.
  Lemma arg_rel k ins ins' outs r r' i : Forall2 chase ins ins' -> rrel r r' -> vrel D (arg_view k ins outs r i) (arg_view k ins' outs r' i).
  Proof using.
    intros Hi (Ha & Hr & _). unfold arg_view. pose proof (Forall2_length _ _ _ Hr) as Hl. rewrite <-Hl.
    destruct k; repeat case_decide; constructor; by apply chase_nth.
  Qed.
  Lemma nrel_defs n n' : nrel n n' -> forall o w', (o, w') ∈ ndefs n' -> exists w, (o, w) ∈ ndefs n /\ vrel D w w'.
  Proof using.
    destruct n as [id k ins outs subs], n' as [id' k' ins' outs' subs']. intros (H1 & H2 & H3 & H4 & H5). cbn in H1, H2, H3, H4, H5. subst. intros o w' [H|(r' & Hr' & H)]%ndefs_unfold.
    - apply elem_of_index in H as (i & Hi & ->). eexists. split; [apply ndefs_unfold; left; apply elem_of_index; eauto|]. by apply out_rel.
    - apply elem_of_list_lookup in Hr' as [j Hj]. destruct (Forall2_lookup_r _ _ _ _ _ H5 Hj) as (r & Hr & Hrr). apply elem_of_list_lookup_2 in Hr. destruct H as [H|H].
      + apply elem_of_index in H as (i & Hi & ->). eexists. split; [|by apply arg_rel]. apply ndefs_unfold. right. exists r. split; [done|]. left. apply elem_of_index. exists i. destruct Hrr as [<- _]. done.
      + destruct Hrr as (_ & _ & Hd). destruct (Hd _ _ H) as (w & Hw & Hv). exists w. split; [|done]. apply ndefs_unfold. eauto.
  Qed.
  Lemma nrel_list ns ns' : Forall2 nrel ns ns' -> forall args res args' res' o w', (o, w') ∈ rdefs (Region args' res' ns') -> exists w, (o, w) ∈ rdefs (Region args res ns) /\ vrel D w w'.
  Proof using.
    intros H args res args' res' o w' (n' & Hn' & Ho)%rdefs_unfold. apply elem_of_list_lookup in Hn' as [j Hj]. destruct (Forall2_lookup_r _ _ _ _ _ H Hj) as (n & Hn & Hr).
    destruct (nrel_defs _ _ Hr _ _ Ho) as (w & Hw & Hv). exists w. split; [|done]. apply rdefs_unfold. exists n. split; [by eapply elem_of_list_lookup_2 | done].
  Qed.

  (** diverting *)
  Lemma sub1_chase o x l l' : chase o x -> Forall2 chase l l' -> Forall2 chase l (sub1 o x <$> l').
  Proof using.
    intros Ho H. induction H as [|y y' l l' Hy H IH]; [constructor|]. rewrite fmap_cons. constructor; [|done]. unfold sub1. case_decide; [subst; by eapply chase_trans | done].
  Qed.
  Lemma divert_nrel o x n n' : chase o x -> nrel n n' -> nrel n (divert_ins o x n').
  Proof using. destruct n'. intros Ho (H1 & H2 & H3 & H4 & H5). repeat (split; [done|]). split; [by apply sub1_chase | done]. Qed.
  Definition strel (ns : list node) (res : list oid) (st : list node * list oid) : Prop := Forall2 nrel ns st.1 /\ Forall2 chase res st.2.
  Lemma divert_all_rel ns res L st : Forall (fun '(o, x) => chase o x) L -> strel ns res st -> strel ns res (divert_all L st).
  Proof using.
    intros HL. revert st. induction HL as [|[o x] L Ho HL IH]; intros st H; [done|]. unfold divert_all. cbn [foldl]. apply IH. destruct H as [H1 H2]. split; cbn [divert_users fst snd].
    - apply Forall2_fmap_r. eapply Forall2_impl; [exact H1|]. intros. by apply divert_nrel.
    - by apply sub1_chase.
  Qed.

  Lemma position_lookup o l i : position o l = Some i -> l !! i = Some o.
  Proof using.
    revert i. induction l as [|x l IH]; intros i; [done|]. cbn [position]. case_decide; [intros [= <-]; by subst|]. destruct (position o l); [|done]. cbn. intros [= <-]. cbn. auto.
  Qed.
  Lemma external_spec ins k r z : external_origin ins k r = Some z -> exists a i, rres r !! k = Some a /\ rargs r !! S i = Some a /\ ins !! S i = Some z.
  Proof using.
    unfold external_origin. intros (x & Hx & H)%bind_Some. apply bind_Some in H as (i & Hi & H). destruct i as [|i]; [done|]. apply position_lookup in Hi. eauto.
  Qed.
  Lemma invariant_spec ins subs k z : invariant_origin ins subs k = Some z -> forall r, r ∈ subs -> external_origin ins k r = Some z.
  Proof using.
    destruct subs as [|r0 rs]; [done|]. cbn [invariant_origin]. intros (z' & Hz & H)%bind_Some. case_match eqn:E; [|done]. injection H as ->. intros r [->|Hr]%elem_of_cons; [done|].
    rewrite forallb_forall in E. apply elem_of_list_In in Hr. specialize (E r Hr). by apply bool_decide_eq_true in E.
  Qed.

  Lemma moves_chase cfg io n n' ns res : (forall d, d ∈ ndefs n -> D d) -> nrel n n' -> Forall (fun '(o, x) => chase o x) (moves cfg io n' ns res).
  Proof using.
    destruct n as [id k ins outs subs], n' as [id' k' ins' outs' subs']. intros HD (H1 & H2 & H3 & H4 & H5). cbn in H1, H2, H3, H4, H5. subst. apply Forall_forall. intros [o x] H. cbn [moves] in H.
    assert (Hout : forall i o, outs !! i = Some o -> D (o, out_view id k ins outs subs i)). { intros i o0 Ho. apply HD, ndefs_unfold. left. apply elem_of_index. eauto. }
    destruct k; cbn [moves] in H; try by apply elem_of_nil in H.
    - destruct (on_load cfg && _); [|by apply elem_of_nil in H]. apply elem_of_list_lookup in H as [j Hj]. rewrite lookup_tail in Hj. apply lookup_zip_with_Some in Hj as (o' & x' & [= <- <-] & Ho & Hx).
      specialize (Hout _ _ Ho). cbn [out_view] in Hout. destruct (Forall2_lookup_r _ _ _ _ _ H4 Hx) as (z & Hz & Hc). by eapply chase_load.
    - destruct (on_gamma cfg); [|by apply elem_of_nil in H]. apply elem_of_list_omap in H as ([i o'] & Ho & H). apply bind_Some in H as (z & Hz & [= <- <-]). apply elem_of_lookup_imap in Ho as (j & y & [= -> ->] & Ho).
      specialize (Hout _ _ Ho). cbn [out_view] in Hout. pose proof (invariant_spec _ _ _ _ Hz) as Hinv.
      (* the argument and the origin in each branch *)
      set (ext r' := match rres r' !! j with Some a => match position a (rargs r') with Some i => (a, nth i ins 0) | None => (0, 0) end | None => (0, 0) end).
      assert (Hb : forall i r c es, (gamma_branch ins j <$> subs) !! i = Some (r, c, es) -> chase r (nth i (map fst (map ext subs')) 0) /\ (nth i (map fst (map ext subs')) 0, nth i (map snd (map ext subs')) 0) ∈ es /\ chase (nth i (map snd (map ext subs')) 0) z).
      { intros i r c es Hi. rewrite list_lookup_fmap in Hi. destruct (subs !! i) as [s|] eqn:Es; [|done]. cbn in Hi. unfold gamma_branch in Hi. injection Hi as <- <- <-.
        destruct (Forall2_lookup_l _ _ _ _ _ H5 Es) as (s' & Es' & Ha & Hr & _). pose proof (Hinv s' (elem_of_list_lookup_2 _ _ _ Es')) as Hext.
        rewrite (nth_elem _ i 0 (ext s').1), (nth_elem _ i 0 (ext s').2).
        2,3: change (map ?f ?l) with (f <$> l); by rewrite !list_lookup_fmap, Es'.
        unfold external_origin in Hext. apply bind_Some in Hext as (a & Hra & Hext). apply bind_Some in Hext as (m & Hm & Hext). destruct m as [|m]; [done|]. unfold ext. rewrite Hra, Hm. cbn [fst snd].
        pose proof (position_lookup _ _ _ Hm) as Hargs. rewrite Ha in Hargs. split; [|split].
        - rewrite <-(nth_elem _ j 0 a Hra). by apply chase_nth.
        - destruct (Forall2_lookup_r _ _ _ _ _ H4 Hext) as (z0 & Hz0 & _). rewrite (nth_elem _ _ 0 _ Hz0). apply elem_of_list_lookup. exists m. apply lookup_zip_with_Some. exists a, z0. rewrite !lookup_tail. done.
        - destruct (Forall2_lookup_r _ _ _ _ _ H4 Hext) as (z0 & Hz0 & Hc). by rewrite (nth_elem _ _ 0 _ Hz0). }
      eapply (chase_gamma D _ _ _ (map fst (map ext subs')) (map snd (map ext subs'))); [exact Hout | | |]; intros i r c es Hi; by destruct (Hb _ _ _ _ Hi) as (? & ? & ?).
    - destruct (on_theta cfg); [|by apply elem_of_nil in H]. apply elem_of_list_omap in H as ([i o'] & Ho & H). destruct (negb (io o') && _) eqn:E; [|done]. apply andb_true_iff in E as [_ E].
      apply bind_Some in H as (z & Hz & [= <- <-]). apply elem_of_lookup_imap in Ho as (j & y & [= -> ->] & Ho). specialize (Hout _ _ Ho). cbn [out_view] in Hout. fold region0 in Hout.
      unfold loop_var_invariant in E. pose proof (rrel_nth _ _ 0 H5) as (Ha & Hr & _). destruct (rargs (nth 0 subs' region0) !! j) as [a|] eqn:Ea; [|done]. destruct (rres (nth 0 subs' region0) !! S j) as [q|] eqn:Eq; [|done].
      apply bool_decide_eq_true in E as ->. rewrite Ha in Ea. destruct (Forall2_lookup_r _ _ _ _ _ Hr Eq) as (q0 & Hq0 & Hc). destruct (Forall2_lookup_r _ _ _ _ _ H4 Hz) as (z0 & Hz0 & Hcz).
      rewrite (nth_elem _ (S j) 0 _ Hq0), (nth_elem _ j 0 _ Hz0) in Hout. eapply chase_theta; [exact Hout | | exact Hc | exact Hcz].
      unfold loop_vars. apply elem_of_list_lookup. exists j. apply lookup_zip_with_Some. exists (a, z0), q0. split; [done|]. split; [apply lookup_zip_with_Some; eauto|]. by rewrite lookup_tail.
  Qed.
End Rel.

Lemma elem_of_prune res ns n : n ∈ prune_list res ns -> n ∈ ns.
Proof. intros H. eapply elem_of_submseteq; [exact H|]. apply sublist_submseteq, prune_sublist. Qed.
Lemma redirect_region_unfold cfg io ord args res ns : redirect_region cfg io ord (Region args res ns) =
  Region args (foldl (visit cfg io) (map (redirect_node cfg io ord) ns, res) (ord ns)).2
    (prune_list (foldl (visit cfg io) (map (redirect_node cfg io ord) ns, res) (ord ns)).2 (foldl (visit cfg io) (map (redirect_node cfg io ord) ns, res) (ord ns)).1).
Proof. done. Qed.

Section Pass.
  Context (D : oid * view -> Prop) (cfg : config) (io : oid -> bool) (ord : list node -> list nat).
  Lemma visits_rel ns res ids st : (forall n, n ∈ ns -> forall d, d ∈ ndefs n -> D d) -> strel D ns res st -> strel D ns res (foldl (visit cfg io) st ids).
  Proof using.
    intros HD. revert st. induction ids as [|id ids IH]; intros st H; [done|]. cbn [foldl]. apply IH. unfold visit. destruct (list_find _ _) as [[j n']|] eqn:E; [|done].
    apply list_find_Some in E as (Hj & _ & _). destruct (Forall2_lookup_r _ _ _ _ _ (proj1 H) Hj) as (n & Hn & Hr). apply divert_all_rel; [|done]. apply (moves_chase D cfg io n); [|done]. apply HD. by eapply elem_of_list_lookup_2.
  Qed.
  Lemma redirect_rel : (forall n, (forall d, d ∈ ndefs n -> D d) -> nrel D n (redirect_node cfg io ord n)) /\
    (forall r, (forall d, d ∈ rdefs r -> D d) -> rrel D r (redirect_region cfg io ord r)).
  Proof using.
    apply tree_ind.
    - intros id k ins outs subs IH HD.
      assert (Hs : Forall2 (rrel D) subs (map (redirect_region cfg io ord) subs)).
      { apply Forall2_fmap_r, Forall_Forall2_diag. rewrite Forall_forall in IH |- *. intros r Hr. apply IH; [done|]. intros d Hd. apply HD, ndefs_unfold. eauto. }
      destruct k; cbn [redirect_node]; try apply nrel_refl.
      all: repeat (split; [done|]); split; [apply chase_list_refl | exact Hs].
    - intros args res ns IH HD. rewrite redirect_region_unfold. set (st := foldl _ _ _).
      assert (HDn : forall n, n ∈ ns -> forall d, d ∈ ndefs n -> D d). { intros n Hn d Hd. apply HD, rdefs_unfold. eauto. }
      assert (Hst : strel D ns res st).
      { apply visits_rel; [done|]. split; [|apply chase_list_refl]. cbn [fst]. apply Forall2_fmap_r, Forall_Forall2_diag. rewrite Forall_forall in IH |- *. intros n Hn. apply IH; [done|]. by apply HDn. }
      destruct Hst as [H1 H2]. split; [done|]. split; [done|]. intros o w' (n' & Hn' & Ho)%rdefs_unfold. eapply (nrel_list D ns st.1 H1 args res args st.2). apply rdefs_unfold. exists n'. split; [|done].
      by eapply elem_of_prune.
  Qed.
  Lemma top_rel : (forall n, (forall d, d ∈ ndefs n -> D d) -> nrel D n (redirect_top cfg io ord n)) /\
    (forall r, (forall d, d ∈ rdefs r -> D d) -> rrel D r (ivr cfg io ord r)).
  Proof using.
    apply tree_ind.
    - intros id k ins outs subs IH HD.
      assert (HDs : forall r, r ∈ subs -> forall d, d ∈ rdefs r -> D d). { intros r Hr d Hd. apply HD, ndefs_unfold. eauto. }
      destruct k; cbn [redirect_top]; try apply nrel_refl.
      + repeat (split; [done|]). split; [apply chase_list_refl|]. cbn [nsubs]. apply Forall2_fmap_r, Forall_Forall2_diag, Forall_forall. intros r Hr. apply (proj2 redirect_rel). by apply HDs.
      + repeat (split; [done|]). split; [apply chase_list_refl|]. cbn [nsubs]. apply Forall2_fmap_r, Forall_Forall2_diag. rewrite Forall_forall in IH |- *. intros r Hr. apply (IH r Hr). by apply HDs.
    - intros args res ns IH HD. cbn [ivr]. split; [done|]. split; [apply chase_list_refl|]. apply (nrel_list D ns). apply Forall2_fmap_r, Forall_Forall2_diag. rewrite Forall_forall in IH |- *.
      intros n Hn. apply IH; [done|]. intros d Hd. apply HD, rdefs_unfold. eauto.
  Qed.
End Pass.
