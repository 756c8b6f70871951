(** Justified congruences, node by node. *)
From stdpp Require Import base list list_numbers fin_sets gmap.
From Verif.Rvsdg Require Import Model Spec Sem Wf WfFacts Args Divert Local.
From Verif.Dne Require Import Model.
From Verif.Ivr Require Import Model.
From Verif.Cne Require Import Model Spec ProofsSem.

Section Just.
  Context (s : oid -> oid).
  Definition jsimple (pre : list node) (n : node) : Prop := forall k o, nouts n !! k = Some o -> s o = o \/
    exists m, m ∈ pre /\ same_op (nkind n) (nkind m) = true /\ nouts m !! k = Some (s o) /\ s <$> nins n = s <$> nins m.
  Definition jargs (k : kind) (ins : list oid) (r : region) : Prop := forall i a, rargs r !! i = Some a ->
    exists j, rargs r !! j = Some (s a) /\ match arg_origin k ins r i with None => j = i | Some x => exists y, arg_origin k ins r j = Some y /\ s x = s y end.
  Definition jexit (ins outs : list oid) (subs : list region) : Prop := forall k o, outs !! k = Some o -> s o = o \/
    (exists k', outs !! k' = Some (s o) /\ forall r, r ∈ subs -> exists x y, rres r !! k = Some x /\ rres r !! k' = Some y /\ s x = s y) \/
    (exists z0, z0 ∈ ins /\ s z0 = s o /\ forall r, r ∈ subs -> exists x i z, rres r !! k = Some x /\ rargs r !! i = Some x /\ arg_origin Gamma ins r i = Some z /\ s z = s o).
  Definition jposts (r : region) : Prop := forall i j a b x y, rargs r !! i = Some a -> rargs r !! j = Some b -> s a = s b ->
    rres r !! S i = Some x -> rres r !! S j = Some y -> s x = s y.
  (** loop variable j is invariant and has the value x *)
  Definition jinv (r : region) (x : oid) (j : nat) : Prop := exists y, rargs r !! j = Some (s x) /\ rres r !! S j = Some y /\ s y = s x.
  Definition jthout (ins outs : list oid) (r : region) : Prop := forall i o x, outs !! i = Some o -> rres r !! S i = Some x -> s o = o \/
    (exists j y, outs !! j = Some (s o) /\ rres r !! S j = Some y /\ s x = s y) \/
    (exists j z, jinv r x j /\ ins !! j = Some z /\ s z = s o).
  Definition jlist (f : list node -> node -> Prop) : list node -> list node -> Prop :=
    fix go pre ns := match ns with [] => True | n :: ns => f pre n /\ go (pre ++ [n]) ns end.
  Fixpoint jnode (pre : list node) (n : node) : Prop :=
    let 'Node id k ins outs subs := n in
    match k with
    | Simple _ | Load _ => jsimple pre n
    | Delta => forall o, o ∈ (ndefs n).*1 -> s o = o
    | _ => (fold_right and True (map jregion subs) /\ Forall (jargs k ins) subs) /\
        match k with
        | Gamma => jexit ins outs subs
        | Theta => jposts (nth 0 subs region0) /\ jthout ins outs (nth 0 subs region0)
        | _ => forall o, o ∈ outs -> s o = o
        end
    end
  with jregion (r : region) : Prop := let 'Region args res ns := r in jlist jnode [] ns.
End Just.
Lemma jregion_unfold s args res ns : jregion s (Region args res ns) <-> jlist (jnode s) [] ns.
Proof. done. Qed.

(** what a node depends on *)
Definition subkeys (r : region) : list oid := rargs r ++ (rdefs r).*1.
Lemma subkeys_nkeys n r x : r ∈ nsubs n -> x ∈ subkeys r -> x ∈ (ndefs n).*1.
Proof. destruct n. cbn [nsubs]. unfold subkeys. rewrite elem_of_app. intros Hr Hx. apply nkeys_iff. eauto. Qed.
Lemma res_subkeys r x : wf_region r -> x ∈ rres r -> x ∈ subkeys r.
Proof. intros Hw Hx. apply wf_region_res in Hx; [|done]. unfold subkeys. apply elem_of_app in Hx as [Hx|Hx]; apply elem_of_app; [by left | right; by apply own_rkeys]. Qed.
Lemma arg_origin_ins k ins r i x : arg_origin k ins r i = Some x -> x ∈ ins.
Proof. unfold arg_origin. intros Hx0. destruct k; repeat case_match; try done; by eapply elem_of_list_lookup_2. Qed.

Definition agree (s s' : oid -> oid) (l : list oid) : Prop := forall x, x ∈ l -> s' x = s x.
Lemma agree_fmap s s' (l : list oid) : agree s s' l -> s' <$> l = s <$> l.
Proof. intros H. apply list_fmap_ext. intros i x Hx. apply H. by eapply elem_of_list_lookup_2. Qed.
Lemma jlist_impl (f g : list node -> node -> Prop) pre ns : (forall a n b, ns = a ++ n :: b -> f (pre ++ a) n -> g (pre ++ a) n) -> jlist f pre ns -> jlist g pre ns.
Proof.
  revert pre. induction ns as [|n ns IH]; intros pre H; [done|]. cbn [jlist]. intros [H1 H2]. split.
  - specialize (H [] n ns eq_refl). rewrite app_nil_r in H. auto.
  - apply IH; [|done]. intros a m b -> Hf. rewrite <-app_assoc in Hf |- *. apply (H (n :: a) m b); done.
Qed.
Lemma jext s s' : (forall n pre A, wf_node n -> (forall x, x ∈ nins n -> x ∈ A) -> (forall m x, m ∈ pre -> x ∈ nins m -> x ∈ A) -> agree s s' A -> agree s s' (ndefs n).*1 -> jnode s pre n -> jnode s' pre n) /\
  (forall r, wf_region r -> agree s s' (subkeys r) -> jregion s r -> jregion s' r).
Proof.
  apply tree_ind.
  - intros id k ins outs subs IH pre A Hw Hi Hp HA HK H. cbn [nins] in Hi. rewrite Forall_forall in IH.
    assert (Ho : agree s s' outs). { intros x Hx. apply HK. by apply (nouts_nkeys (Node id k ins outs subs)). }
    assert (Hins : agree s s' ins) by (intros x Hx; auto).
    pose proof Hw as [Hsh Hws]%wf_node_unfold. rewrite Forall_forall in Hws.
    assert (Hsub : forall r, r ∈ subs -> agree s s' (subkeys r)) by (intros r Hr x Hx; apply HK; by eapply (subkeys_nkeys (Node id k ins outs subs))).
    assert (Harg : forall r a i, r ∈ subs -> rargs r !! i = Some a -> s' a = s a). { intros r a i Hr Ha. apply (Hsub r Hr). unfold subkeys. apply elem_of_app. left. by eapply elem_of_list_lookup_2. }
    assert (Hres : forall r a i, r ∈ subs -> rres r !! i = Some a -> s' a = s a). { intros r a i Hr Ha. apply (Hsub r Hr). apply res_subkeys; [auto | by eapply elem_of_list_lookup_2]. }
    assert (HS : fold_right and True (map (jregion s) subs) /\ Forall (jargs s k ins) subs -> fold_right and True (map (jregion s') subs) /\ Forall (jargs s' k ins) subs).
    { rewrite !fold_and, !Forall_forall. intros [H1 H2]. split; [intros r Hr; apply IH; auto|]. intros r Hr i a Ha. destruct (H2 r Hr i a Ha) as (j & Hj & Hm). rewrite (Harg _ _ _ Hr Ha). exists j. split; [done|].
      destruct (arg_origin k ins r i) as [x|] eqn:Ex; [|done]. destruct Hm as (y & Hy & He). exists y. split; [done|]. rewrite !Hins; [done | by eapply arg_origin_ins | by eapply arg_origin_ins]. }
    assert (HJs : is_simple (Node id k ins outs subs) = true -> jsimple s pre (Node id k ins outs subs) -> jsimple s' pre (Node id k ins outs subs)).
    { intros _ HJ j o Hj. cbn [nouts nins nkind] in *. rewrite (Ho o) by (by eapply elem_of_list_lookup_2). destruct (HJ j o Hj) as [He|(m & Hm & H1 & H2 & H3)]; [by left|]. right. exists m. split; [done|]. split; [done|]. split; [done|]. cbn [nins] in H3. rewrite (agree_fmap s s' ins), (agree_fmap s s' (nins m)); [done | intros x Hx; apply HA; eauto | done]. }
    destruct k; cbn [jnode] in *.
    + by apply HJs.
    + by apply HJs.
    + destruct H as [H1 H2]. split; [auto|]. intros j o Hj. rewrite (Ho o) by (by eapply elem_of_list_lookup_2). destruct (H2 j o Hj) as [He|[(k' & Hk' & Hr)|(z0 & Hz0 & Hsz0 & Hr)]]; [by left | right; left | right; right].
      * exists k'. split; [done|]. intros r Hin. destruct (Hr r Hin) as (x & y & Hx & Hy & He). exists x, y. split; [done|]. split; [done|]. by rewrite (Hres r x _ Hin Hx), (Hres r y _ Hin Hy).
      * exists z0. split; [done|]. split; [rewrite Hins; done|]. intros r Hin. destruct (Hr r Hin) as (x & i & z & Hx & Ha & Hz & He). exists x, i, z. split; [done|]. split; [done|]. split; [done|]. rewrite Hins; [done | by eapply arg_origin_ins].
    + destruct H as [H1 [H2 H3]]. destruct Hsh as (r & -> & _). cbn [nth] in *. assert (Hr0 : r ∈ [r]) by left. split; [auto|]. split.
      * intros i j a b x y Ha Hb He Hx Hy. rewrite (Harg r a i Hr0 Ha), (Harg r b j Hr0 Hb) in He. rewrite (Hres r x _ Hr0 Hx), (Hres r y _ Hr0 Hy). exact (H2 i j a b x y Ha Hb He Hx Hy).
      * intros i o x Hio Hx. rewrite (Ho o) by (by eapply elem_of_list_lookup_2). destruct (H3 i o x Hio Hx) as [He|[(j & y & Hj & Hy & He)|(j & z & (y & Hj & Hy & He) & Hz & Hs)]]; [by left | right; left | right; right].
        -- exists j, y. split; [done|]. split; [done|]. by rewrite (Hres r x _ Hr0 Hx), (Hres r y _ Hr0 Hy).
        -- exists j, z. split; [|split; [done|]]. { exists y. rewrite (Hres r x _ Hr0 Hx), (Hres r y _ Hr0 Hy). done. } rewrite Hins; [done | by eapply elem_of_list_lookup_2].
    + destruct H as [H1 H2]. split; [auto|]. intros o Hin. rewrite Ho; auto.
    + destruct H as [H1 H2]. split; [auto|]. intros o Hin. rewrite Ho; auto.
    + intros o Hin. rewrite HK; auto.
  - intros args res ns IH [Hw _] Ha H. rewrite Forall_forall in IH. apply jregion_unfold. apply jregion_unfold in H. eapply jlist_impl; [|exact H]. intros a n b E Hj. rewrite app_nil_l in Hj |- *.
    pose proof (wf_list_Forall _ _ _ Hw) as Hwf. pose proof (wf_list_scope _ _ _ Hw) as Hsc. rewrite Forall_forall in Hwf, Hsc.
    assert (HA : forall m x, m ∈ ns -> x ∈ nins m -> x ∈ args ++ own ns) by (intros m x Hm Hx; specialize (Hsc m Hm); rewrite Forall_forall in Hsc; auto).
    assert (Hn : n ∈ ns) by (rewrite E; apply elem_of_app; right; left).
    eapply (IH n Hn a (args ++ own ns)); [auto | intros; by eapply HA | intros m x Hm Hx; eapply HA; [|exact Hx]; rewrite E; apply elem_of_app; by left | | |exact Hj].
    + intros x Hx. apply Ha. unfold subkeys. cbn [rargs]. apply elem_of_app in Hx as [Hx|Hx]; apply elem_of_app; [by left | right]. by apply (own_rkeys (Region args res ns)).
    + intros x Hx. apply Ha. unfold subkeys. apply elem_of_app. right. apply rkeys_iff. eauto.
Qed.
Lemma dext s s' : (forall n, agree s s' (ndefs n).*1 -> dok_node s n -> dok_node s' n) /\ (forall r, agree s s' (subkeys r) -> dok_region s r -> dok_region s' r).
Proof.
  apply tree_ind.
  - intros id k ins outs subs IH HK H. cbn [dok_node] in *. rewrite fold_and, Forall_forall in H |- *. rewrite Forall_forall in IH. intros r Hr. apply (IH r Hr); [|auto]. intros x Hx. apply HK. by eapply (subkeys_nkeys (Node id k ins outs subs)).
  - intros args res ns IH HK (H1 & H2 & H3). cbn [dok_region]. rewrite fold_and, Forall_forall in H3 |- *. rewrite Forall_forall in IH. unfold subkeys in HK. cbn [rargs] in HK.
    assert (HK2 : forall n, n ∈ ns -> agree s s' (ndefs n).*1). { intros n Hn x Hx. apply HK. apply elem_of_app. right. apply rkeys_iff. eauto. }
    split; [|split].
    + intros x Hx. rewrite HK; [auto|]. apply elem_of_app. by left.
    + clear -H2 HK2. revert args H2. induction ns as [|n ns IH]; intros av H2; [done|]. cbn [avail_ok] in *. destruct H2 as [H H2]. split; [|apply IH; [intros m Hm; apply HK2; by right | done]].
      intros x Hx. rewrite (HK2 n ltac:(left)); [auto|]. by apply nouts_nkeys.
    + intros n Hn. apply (IH n Hn); auto.
Qed.
