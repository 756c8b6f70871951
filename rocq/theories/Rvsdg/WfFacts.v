(** Facts about well-formed RVSDGs. *)
From stdpp Require Import base list list_numbers fin_sets gmap.
From Verif.Rvsdg Require Import Model Spec Sem Wf.

Lemma elem_of_fst {A B} (l : list (A * B)) a : a ∈ l.*1 <-> exists b, (a, b) ∈ l.
Proof. rewrite elem_of_list_fmap. split; [intros ([x y] & -> & H); eauto | intros [b H]; exists (a, b); auto]. Qed.
Lemma nkeys_iff id k ins outs subs o : o ∈ (ndefs (Node id k ins outs subs)).*1 <->
  o ∈ outs \/ exists r, r ∈ subs /\ (o ∈ rargs r \/ o ∈ (rdefs r).*1).
Proof.
  rewrite elem_of_fst. setoid_rewrite ndefs_unfold. setoid_rewrite elem_of_fst. split.
  - intros (w & [H | (r & Hr & [H | H])]).
    + left. rewrite elem_of_index in H. destruct H as (i & H & _). eapply elem_of_list_lookup_2; eauto.
    + right. exists r. split; [done|]. left. rewrite elem_of_index in H. destruct H as (i & H & _). eapply elem_of_list_lookup_2; eauto.
    + right. exists r. eauto.
  - intros [H | (r & Hr & [H | [w H]])].
    + apply elem_of_list_lookup in H as [i H]. eexists. left. apply elem_of_index. eauto.
    + apply elem_of_list_lookup in H as [i H]. eexists. right. exists r. split; [done|]. left. apply elem_of_index. eauto.
    + eexists. right. exists r. eauto.
Qed.
Lemma rkeys_iff args res ns o : o ∈ (rdefs (Region args res ns)).*1 <-> exists n, n ∈ ns /\ o ∈ (ndefs n).*1.
Proof. rewrite elem_of_fst. setoid_rewrite rdefs_unfold. setoid_rewrite elem_of_fst. naive_solver. Qed.
Lemma elem_of_own ns o : o ∈ own ns <-> exists n, n ∈ ns /\ o ∈ nouts n.
Proof. unfold own. apply elem_of_mjoin_map. Qed.
Lemma nouts_nkeys n o : o ∈ nouts n -> o ∈ (ndefs n).*1.
Proof. destruct n. cbn [nouts]. intros H. apply nkeys_iff. auto. Qed.
Lemma own_rkeys r o : o ∈ own (rnodes r) -> o ∈ (rdefs r).*1.
Proof. destruct r as [args res ns]. cbn [rnodes]. rewrite elem_of_own. intros (n & Hn & H). apply rkeys_iff. exists n. split; [done | by apply nouts_nkeys]. Qed.
Lemma fold_and {A} (f : A -> Prop) l : fold_right and True (map f l) <-> Forall f l.
Proof. induction l; cbn [fold_right map]; [split; auto|]. rewrite IHl, Forall_cons. done. Qed.
Lemma wf_node_unfold id k ins outs subs : wf_node (Node id k ins outs subs) <-> shape k ins outs subs /\ Forall wf_region subs.
Proof. cbn [wf_node]. rewrite fold_and. done. Qed.
Lemma wf_list_Forall f av ns : wf_list f av ns -> Forall f ns.
Proof. revert av. induction ns as [|n ns IH]; intros av; cbn [wf_list]; [auto|]. intros (_ & Hf & H). constructor; eauto. Qed.
Lemma wf_list_scope f av ns : wf_list f av ns -> Forall (fun n => Forall (fun x => x ∈ av ++ own ns) (nins n)) ns.
Proof.
  revert av. induction ns as [|n ns IH]; intros av; cbn [wf_list]; [auto|]. intros (Hi & _ & H). constructor.
  - eapply Forall_impl; [exact Hi|]. intros x Hx. apply elem_of_app. auto.
  - eapply Forall_impl; [exact (IH _ H)|]. intros n' H'. eapply Forall_impl; [exact H'|]. intros x.
    unfold own. cbn [map]. cbn. rewrite !elem_of_app. tauto.
Qed.
Lemma nth_elem {A} (l : list A) i d x : l !! i = Some x -> nth i l d = x.
Proof. intros H. apply nth_lookup_Some. done. Qed.
Lemma nth_in {A} (l : list A) i d : i < length l -> nth i l d ∈ l.
Proof. intros H. apply elem_of_list_lookup. exists i. destruct (lookup_lt_is_Some_2 l i H) as [x Hx]. rewrite (nth_elem _ _ _ _ Hx). done. Qed.
Lemma elem_of_zip_2 {A B} (l : list A) (k : list B) a b : (a, b) ∈ zip l k -> a ∈ l /\ b ∈ k.
Proof. intros H. split; [eapply elem_of_zip_l | eapply elem_of_zip_r]; exact H. Qed.
Lemma elem_of_tail {A} (l : list A) x : x ∈ tail l -> x ∈ l.
Proof. destruct l; cbn; [done|]. intros H. by right. Qed.

Lemma res_scope r x : wf_region r -> x ∈ rres r -> x ∈ rargs r \/ x ∈ (rdefs r).*1.
Proof.
  destruct r as [args res ns]. intros [Hl Hr] Hx. cbn [rres rargs] in *. rewrite Forall_forall in Hr. apply Hr in Hx.
  apply elem_of_app in Hx as [Hx|Hx]; [auto|]. right. by apply (own_rkeys (Region args res ns)).
Qed.

(** the references of an output stay within its node or are the origins of the node's inputs *)
Lemma out_refs id k ins outs subs i x : shape k ins outs subs -> Forall wf_region subs -> i < length outs ->
  x ∈ refs (out_view id k ins outs subs i) -> x ∈ ins \/ exists r, r ∈ subs /\ x ∈ rres r.
Proof.
  intros Hs Hw Hi. unfold out_view.
  destruct k; cbn [shape] in Hs.
  - cbn [refs]. auto.
  - cbn [refs]. auto.
  - destruct Hs as [Hne Hs]. cbn [refs]. rewrite elem_of_cons. intros [-> | H].
    + left. destruct ins; [done | cbn [nth]; left].
    + apply elem_of_mjoin_map in H as ([[y c] es] & Hb & H). apply elem_of_list_fmap in Hb as (r & Hb & Hr).
      unfold gamma_branch in Hb. injection Hb as -> -> ->. rewrite Forall_forall in Hs. destruct (Hs r Hr) as [Ha Hrs].
      apply elem_of_cons in H as [-> | H].
      * right. exists r. split; [done|]. apply nth_in. lia.
      * left. apply elem_of_list_fmap in H as ([a b] & -> & H). apply elem_of_zip_2 in H as [_ H]. by apply elem_of_tail.
  - destruct Hs as (r & -> & Ha & Ho & Hr). cbn [nth refs]. rewrite !elem_of_cons, elem_of_app.
    intros [-> | [-> | [-> | [H | H]]]].
    + right. exists r. split; [left|]. apply nth_in. lia.
    + right. exists r. split; [left|]. apply (nth_in (rres r) (S i)). lia.
    + left. apply nth_in. lia.
    + left. apply elem_of_list_fmap in H as ([a b] & -> & H). apply elem_of_list_fmap in H as ([[a' b'] c'] & [= -> ->] & H).
      unfold loop_vars in H. apply elem_of_zip_2 in H as [H _]. apply elem_of_zip_2 in H as [_ H]. done.
    + right. apply elem_of_list_fmap in H as ([a b] & -> & H). unfold loop_vars in H. apply elem_of_zip_2 in H as [_ H].
      exists r. split; [left|]. by apply elem_of_tail.
  - destruct Hs as (r & -> & _). cbn [nth refs]. intros H. right. exists r. split; [left | done].
  - destruct Hs as (r & -> & _ & Hr). cbn [nth refs]. rewrite elem_of_list_singleton. intros ->. right. exists r. split; [left|]. apply nth_in. lia.
  - destruct Hs as (r & -> & _). cbn [nth refs]. intros H. right. exists r. split; [left | done].
Qed.
Lemma arg_refs k ins outs subs r i x : shape k ins outs subs -> r ∈ subs -> i < length (rargs r) ->
  x ∈ refs (arg_view k ins outs r i) -> x ∈ ins \/ x ∈ outs \/ x ∈ rres r.
Proof.
  intros Hs Hr Hi. unfold arg_view. destruct k; cbn [shape] in Hs.
  - subst. inversion Hr.
  - destruct Hs as [-> _]. inversion Hr.
  - destruct Hs as [_ Hs]. rewrite Forall_forall in Hs. destruct (Hs r Hr) as [Ha _]. cbn [refs]. rewrite elem_of_list_singleton. intros ->. left. apply nth_in. lia.
  - destruct Hs as (r' & -> & Ha & Ho & _). apply elem_of_list_singleton in Hr as <-. cbn [refs]. rewrite elem_of_cons, elem_of_list_singleton.
    intros [-> | ->]; [right; left | left]; apply nth_in; lia.
  - destruct Hs as (r' & -> & Ha & _). apply elem_of_list_singleton in Hr as <-. destruct (decide (i < n)); cbn [refs]; [by intros ?%elem_of_nil|].
    rewrite elem_of_list_singleton. intros ->. left. apply nth_in. lia.
  - destruct Hs as (r' & -> & Ha & Hr'). apply elem_of_list_singleton in Hr as <-. destruct (decide (i < length (rres r))); cbn [refs];
      rewrite elem_of_list_singleton; intros ->; [right; right | left]; apply nth_in; lia.
  - destruct Hs as (r' & -> & Ha & _). apply elem_of_list_singleton in Hr as <-. cbn [refs]. rewrite elem_of_list_singleton. intros ->. left. apply nth_in. lia.
Qed.
Lemma refs_scope :
  (forall n, wf_node n -> forall y w x, (y, w) ∈ ndefs n -> x ∈ refs w -> x ∈ nins n \/ x ∈ (ndefs n).*1) /\
  (forall r, wf_region r -> forall y w x, (y, w) ∈ rdefs r -> x ∈ refs w -> x ∈ rargs r \/ x ∈ (rdefs r).*1).
Proof.
  apply tree_ind.
  - intros id k ins outs subs IH Hw y w x Hy Hx. apply wf_node_unfold in Hw as [Hs Hw]. cbn [nins]. rewrite nkeys_iff.
    rewrite Forall_forall in IH.
    assert (Hres : forall r, r ∈ subs -> x ∈ rres r -> exists r, r ∈ subs /\ (x ∈ rargs r \/ x ∈ (rdefs r).*1)).
    { intros r Hr Hxr. exists r. split; [done|]. apply res_scope; [|done]. rewrite Forall_forall in Hw. auto. }
    apply ndefs_unfold in Hy as [Hy | (r & Hr & [Hy | Hy])].
    + apply elem_of_index in Hy as (i & Hi & ->). apply lookup_lt_Some in Hi.
      destruct (out_refs id k ins outs subs i x Hs Hw Hi Hx) as [? | (r & Hr & Hxr)]; [auto|]. right; right. eauto.
    + apply elem_of_index in Hy as (i & Hi & ->). apply lookup_lt_Some in Hi.
      destruct (arg_refs k ins outs subs r i x Hs Hr Hi Hx) as [?|[?|?]]; [auto|auto|]. right; right. eauto.
    + assert (Hwr : wf_region r) by (rewrite Forall_forall in Hw; auto).
      destruct (IH r Hr Hwr y w x Hy Hx) as [?|?]; right; right; exists r; auto.
  - intros args res ns IH [Hl Hr] y w x Hy Hx. cbn [rargs]. rewrite rkeys_iff. apply rdefs_unfold in Hy as (n & Hn & Hy).
    rewrite Forall_forall in IH. pose proof (wf_list_Forall _ _ _ Hl) as Hf. rewrite Forall_forall in Hf.
    destruct (IH n Hn (Hf n Hn) y w x Hy Hx) as [H|H]; [|right; eauto].
    pose proof (wf_list_scope _ _ _ Hl) as Hsc. rewrite Forall_forall in Hsc. specialize (Hsc n Hn). rewrite Forall_forall in Hsc.
    apply Hsc, elem_of_app in H as [H|H]; [auto|]. right. apply elem_of_own in H as (n' & Hn' & H). exists n'. split; [done | by apply nouts_nkeys].
Qed.
Lemma defs_keys t o : o ∈ (defs t).*1 <-> o ∈ rargs t \/ o ∈ (rdefs t).*1.
Proof.
  unfold defs. rewrite fmap_app, elem_of_app, <-list_fmap_compose. assert ((fst ∘ (fun a : nat => (a, VImport a))) <$> rargs t = rargs t) as ->; [|done].
  induction (rargs t); cbn; [done | by f_equal].
Qed.
Lemma wf_refs t y w x : wf_region t -> (y, w) ∈ defs t -> x ∈ refs w -> x ∈ (defs t).*1.
Proof.
  intros Hw Hy Hx. apply defs_keys. unfold defs in Hy. apply elem_of_app in Hy as [Hy|Hy].
  - apply elem_of_list_In, in_map_iff in Hy as (a & [= -> <-] & _). apply elem_of_nil in Hx as [].
  - eapply (proj2 refs_scope); eauto.
Qed.
Lemma wf_res t x : wf_region t -> x ∈ rres t -> x ∈ (defs t).*1.
Proof. intros Hw Hx. apply defs_keys. by apply res_scope. Qed.
Lemma defs_fun t o w w' : NoDup (defs t).*1 -> (o, w) ∈ defs t -> (o, w') ∈ defs t -> w = w'.
Proof.
  intros Hd H1 H2. apply (elem_of_list_to_map_1 (M:=gmap nat)) in H1; [|done]. apply (elem_of_list_to_map_1 (M:=gmap nat)) in H2; [|done]. congruence.
Qed.
