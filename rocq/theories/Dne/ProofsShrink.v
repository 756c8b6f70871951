(** The sweep only removes: outputs, nodes. What it keeps was marked. *)
From stdpp Require Import base list list_numbers fin_sets gmap.
From Verif.Rvsdg Require Import Model Spec Sem Wf WfFacts ListFacts.
From Verif.Dne Require Import Model Spec ProofsMark Rel ProofsList ProofsNode ProofsIds.

Definition nkeys (n : node) : list nat := (ndefs n).*1.
Definition rkeys (r : region) : list nat := (rdefs r).*1.
Lemma nkeys_dins s n : nkeys (dins s n) = nkeys n.
Proof. destruct n. unfold nkeys. cbn [dins]. by rewrite !nkeys_eq. Qed.
Lemma ids_dins s n : node_ids (dins s n) = node_ids n.
Proof. by destruct n. Qed.

(** the nodes kept by [sweep_list] *)
Inductive keptf (c : ctx) (f : node -> option node) : list node -> list node -> Prop :=
  | kf_nil : keptf c f [] []
  | kf_drop n ns ns' : keptf c f ns ns' -> keptf c f (n :: ns) ns'
  | kf_keep n n1 s ns ns' : alive_node c n = true -> f n = Some n1 -> keptf c f ns ns' -> keptf c f (n :: ns) (dins s n1 :: ns').
Lemma keptf_divert c f o x ns ns' : keptf c f ns ns' -> keptf c f ns (divert_ins o x <$> ns').
Proof. induction 1; [constructor | by constructor|]. rewrite fmap_cons, divert_dins, dins_comp. by constructor. Qed.
Lemma upairs_kept c f L ns st : keptf c f ns st.1 -> keptf c f ns (upairs L st).1.
Proof.
  revert st. induction L as [|[o x] L IH]; intros st H; [done|]. cbn. apply IH. cbn. by apply keptf_divert.
Qed.
Lemma sweep_list_kept c f res ns st : sweep_list c f res ns = Some st -> keptf c f ns st.1.
Proof.
  revert st. induction ns as [|n ns IH]; intros st; [intros [= <-]; constructor|].
  change (sweep_list c f res (n :: ns)) with (st ← sweep_list c f res ns; if alive_node c n then if outs_ok c n st.1 st.2 then n' ← f n; Some (n' :: st.1, st.2) else None else remove_node n st.1 st.2).
  intros (st0 & H0 & H)%bind_Some. specialize (IH _ H0). destruct (alive_node c n) eqn:Ea.
  - destruct (outs_ok c n st0.1 st0.2); [|done]. apply bind_Some in H as (n' & Hn & [= <-]). cbn [fst].
    assert (n' = dins id n') as -> by (symmetry; apply dins_id, Forall_forall; done). by constructor.
  - apply kf_drop. unfold remove_node in H. destruct st0 as [ns0 res0]. cbn [fst snd] in *. destruct (nkind n);
      try (by (case_match; [|discriminate]; injection H as <-)).
    case_match; [|discriminate]. injection H as <-. apply (upairs_kept c f (tail (zip (nouts n) (nins n))) ns (ns0, res0)). exact IH.
Qed.

Lemma remove_arguments_eq p r r' : remove_arguments p r = Some r' -> r' = Region (drop_at p (rargs r)) (rres r) (rnodes r).
Proof. unfold remove_arguments. destruct r. case_match; [|done]. by intros [= <-]. Qed.
Lemma prune_inputs_eq n ins r ins' r' : prune_inputs n ins r = Some (ins', r') -> exists p, r' = Region (drop_at p (rargs r)) (rres r) (rnodes r).
Proof. unfold prune_inputs. intros (r1 & H1 & [= <- <-])%bind_Some. apply remove_arguments_eq in H1 as ->. eauto. Qed.

(** ** sublists *)
Lemma sublist_mjoin {A B} (f : A -> list B) (l l' : list A) : l' `sublist_of` l -> mjoin (map f l') `sublist_of` mjoin (map f l).
Proof.
  induction 1 as [|x l l' H IH|x l l' H IH]; [done| |].
  - change (f x ++ mjoin (map f l) `sublist_of` f x ++ mjoin (map f l')). by apply sublist_app.
  - change (mjoin (map f l) `sublist_of` f x ++ mjoin (map f l')). etrans; [exact IH | apply sublist_inserts_l; done].
Qed.
Lemma sublist_mjoin2 {A B} (f : A -> list B) (l l' : list A) : Forall2 (fun x' x => f x' `sublist_of` f x) l' l -> mjoin (map f l') `sublist_of` mjoin (map f l).
Proof.
  induction 1 as [|x' x l' l Hx H IH]; [done|]. change (f x' ++ mjoin (map f l') `sublist_of` f x ++ mjoin (map f l)). by apply sublist_app.
Qed.
Definition sub_node (n' n : node) : Prop := nkeys n' `sublist_of` nkeys n /\ node_ids n' `sublist_of` node_ids n.
Definition sub_region (r' r : region) : Prop := (rargs r' ++ rkeys r') `sublist_of` (rargs r ++ rkeys r) /\ region_ids r' `sublist_of` region_ids r.
Lemma sub_node_intro id k ins ins' outs outs' subs subs' : outs' `sublist_of` outs -> Forall2 sub_region subs' subs ->
  sub_node (Node id k ins' outs' subs') (Node id k ins outs subs).
Proof.
  intros Ho Hs. split.
  - unfold nkeys. rewrite !nkeys_eq. apply sublist_app; [done|]. apply sublist_mjoin2. eapply Forall2_impl; [exact Hs|]. by intros ?? [? _].
  - cbn [node_ids]. constructor. apply sublist_mjoin2. eapply Forall2_impl; [exact Hs|]. by intros ?? [_ ?].
Qed.
Lemma keptf_sub c f ns ns' : keptf c f ns ns' -> Forall (fun n => forall n1, f n = Some n1 -> sub_node n1 n) ns ->
  mjoin (map nkeys ns') `sublist_of` mjoin (map nkeys ns) /\ mjoin (map node_ids ns') `sublist_of` mjoin (map node_ids ns).
Proof.
  induction 1 as [|n ns ns' H IH|n n1 s ns ns' Ha Hf H IH]; [done| |]; intros [Hn Hns]%Forall_cons; destruct (IH Hns) as [IH1 IH2].
  - split.
    + change (mjoin (map nkeys ns') `sublist_of` nkeys n ++ mjoin (map nkeys ns)). etrans; [exact IH1 | by apply sublist_inserts_l].
    + change (mjoin (map node_ids ns') `sublist_of` node_ids n ++ mjoin (map node_ids ns)). etrans; [exact IH2 | by apply sublist_inserts_l].
  - destruct (Hn _ Hf) as [H1 H2]. split.
    + change (nkeys (dins s n1) ++ mjoin (map nkeys ns') `sublist_of` nkeys n ++ mjoin (map nkeys ns)). rewrite nkeys_dins. by apply sublist_app.
    + change (node_ids (dins s n1) ++ mjoin (map node_ids ns') `sublist_of` node_ids n ++ mjoin (map node_ids ns)). rewrite ids_dins. by apply sublist_app.
Qed.
Lemma sub_args p r r' res : r' = Region (drop_at p (rargs r)) res (rnodes r) -> sub_region r' r.
Proof.
  intros ->. destruct r as [args res0 ns]. cbn [rargs rnodes]. split; [|done]. unfold rkeys. rewrite !rkeys_eq. cbn [rargs]. apply sublist_app; [apply drop_at_sublist | done].
Qed.
Lemma sub_region_trans r1 r2 r3 : sub_region r1 r2 -> sub_region r2 r3 -> sub_region r1 r3.
Proof. intros [? ?] [? ?]. split; etrans; eauto. Qed.
Lemma prune_sublist res ns : prune_list res ns `sublist_of` ns.
Proof. induction ns as [|n ns IH]; [done|]. cbn [prune_list]. case_match; by constructor. Qed.
Lemma mapM_Forall2 {A B} (f : A -> option B) l k : mapM f l = Some k -> Forall2 (fun x y => f x = Some y) l k.
Proof. apply mapM_Some_1. Qed.

Lemma sweep_sub c : (forall n n1, sweep_node c n = Some n1 -> sub_node n1 n) /\ (forall r res r', sweep_region c r res = Some r' -> sub_region r' r).
Proof.
  apply tree_ind.
  - intros id k ins outs subs IH n1. destruct k; cbn [sweep_node].
    + intros [= <-]. by split.
    + intros [= <-]. by split.
    + intros (subs' & H1 & H)%bind_Some. apply bind_Some in H as (subs'' & H2 & [= <-]). apply sub_node_intro; [apply drop_at_sublist|].
      apply mapM_Forall2 in H1, H2. clear -IH H1 H2. revert H2. generalize (fun i : nat => (1 <=? i) && forallb (fun r => negb (alive_out c (nth i (rargs r) 0))) subs'). intros p. revert subs''.
      induction H1 as [|r r1 subs subs' Hr H1 IH1]; intros subs'' H2; inversion H2 as [|? r2 ? l2 Hr2 Hl2]; subst; [constructor|]. apply Forall_cons in IH as [Hq IH]. constructor; [|by apply IH1].
      eapply sub_region_trans; [|eapply Hq; exact Hr]. eapply sub_args. by apply remove_arguments_eq in Hr2.
    + destruct subs as [|r [|]]; try done. intros (r1 & H1 & H)%bind_Some. apply bind_Some in H as (r2 & H2 & [= <-]). apply sub_node_intro; [apply drop_at_sublist|].
      rewrite Forall_singleton in IH. constructor; [|constructor]. eapply sub_region_trans; [|eapply IH; exact H1]. apply remove_arguments_eq in H2. destruct r1. cbn in H2. eapply sub_args. exact H2.
    + destruct subs as [|r [|]]; try done. intros (r1 & H1 & H)%bind_Some. apply bind_Some in H as ([ins' r2] & H2 & [= <-]). apply sub_node_intro; [done|].
      rewrite Forall_singleton in IH. constructor; [|constructor]. eapply sub_region_trans; [|eapply IH; exact H1]. apply prune_inputs_eq in H2 as [p H2]. eapply sub_args. exact H2.
    + destruct subs as [|r [|]]; try done. intros (r1 & H1 & H)%bind_Some. apply bind_Some in H as ([ins' r2] & H2 & H). apply bind_Some in H as (r3 & H3 & [= <-]).
      apply sub_node_intro; [apply drop_at_sublist|]. rewrite Forall_singleton in IH. constructor; [|constructor].
      apply remove_arguments_eq in H3. apply prune_inputs_eq in H2 as [p H2].
      eapply sub_region_trans; [|eapply sub_region_trans; [eapply sub_args; exact H2 | eapply IH; exact H1]]. destruct r2. cbn in H3. eapply sub_args. exact H3.
    + destruct subs as [|[args res ns] [|]]; try done. intros ([ins' r2] & H2 & [= <-])%bind_Some. apply sub_node_intro; [done|]. constructor; [|constructor].
      apply prune_inputs_eq in H2 as [p H2]. cbn [rargs rres rnodes] in H2. eapply sub_region_trans; [eapply (sub_args p (Region args res (prune_list res ns))); exact H2|].
      split; unfold rkeys; rewrite ?rkeys_eq; cbn [rargs region_ids]; [apply sublist_app; [done|]|]; apply sublist_mjoin, prune_sublist.
  - intros args res0 ns IH res r'. rewrite sweep_region_unfold. intros (st & H & [= <-])%bind_Some. apply sweep_list_kept in H.
    assert (IH' : Forall (fun n => forall n1, sweep_node c n = Some n1 -> sub_node n1 n) ns) by exact IH.
    destruct (keptf_sub _ _ _ _ H IH') as [H1 H2]. split; [|exact H2]. unfold rkeys. rewrite !rkeys_eq. cbn [rargs]. apply sublist_app; [done | exact H1].
Qed.
