(** Diverting the users of outputs, everywhere in a module: s maps an output to the one its users are given. *)
From stdpp Require Import base list list_numbers fin_sets gmap.
From Verif.Rvsdg Require Import Model Spec Sem Wf WfFacts Det Sim.

Fixpoint dnode (s : oid -> oid) (n : node) : node :=
  let 'Node id k ins outs subs := n in Node id k (s <$> ins) outs (map (dregion s) subs)
with dregion (s : oid -> oid) (r : region) : region :=
  let 'Region args res ns := r in Region args (s <$> res) (map (dnode s) ns).

Definition vsub (s : oid -> oid) (w : view) : view :=
  match w with
  | VSimple id l op k ins => VSimple id l op k (s <$> ins)
  | VGamma p brs => VGamma (s p) (map (fun '(x, c, es) => (s x, c, map (fun '(a, y) => (a, s y)) es)) brs)
  | VGammaArg e => VGammaArg (s e)
  | VTheta p y x lvs => VTheta (s p) (s y) (s x) (map (fun '(a, x, y) => (a, s x, s y)) lvs)
  | VThetaArg o x => VThetaArg o (s x)
  | VLambda id a r => VLambda id a (s <$> r)
  | VFunArg => VFunArg
  | VDelta id r => VDelta id (s <$> r)
  | VCopy x => VCopy (s x)
  | VImport i => VImport i
  end.

Lemma dnode_unfold s id k ins outs subs : dnode s (Node id k ins outs subs) = Node id k (s <$> ins) outs (map (dregion s) subs).
Proof. done. Qed.
Lemma dregion_unfold s args res ns : dregion s (Region args res ns) = Region args (s <$> res) (map (dnode s) ns).
Proof. done. Qed.
Lemma rargs_dregion s r : rargs (dregion s r) = rargs r.
Proof. by destruct r. Qed.
Lemma rres_dregion s r : rres (dregion s r) = s <$> rres r.
Proof. by destruct r. Qed.
Lemma rnodes_dregion s r : rnodes (dregion s r) = map (dnode s) (rnodes r).
Proof. by destruct r. Qed.
Lemma nins_dnode s n : nins (dnode s n) = s <$> nins n.
Proof. by destruct n. Qed.
Lemma nouts_dnode s n : nouts (dnode s n) = nouts n.
Proof. by destruct n. Qed.
Lemma nid_dnode s n : nid (dnode s n) = nid n.
Proof. by destruct n. Qed.
Lemma nkind_dnode s n : nkind (dnode s n) = nkind n.
Proof. by destruct n. Qed.

Lemma nth_fmap (s : oid -> oid) l i : i < length l -> nth i (s <$> l) 0 = s (nth i l 0).
Proof. intros H. destruct (lookup_lt_is_Some_2 l i H) as [x Hx]. rewrite (nth_elem l i 0 x Hx). apply nth_elem. by rewrite list_lookup_fmap, Hx. Qed.
Lemma zip_fmap_r (s : oid -> oid) (l k : list nat) : zip l (s <$> k) = map (fun '(a, y) => (a, s y)) (zip l k).
Proof. revert k. induction l as [|a l IH]; intros [|b k]; try done. cbn. f_equal. apply IH. Qed.
Lemma tail_fmap {A B} (f : A -> B) l : tail (f <$> l) = f <$> tail l.
Proof. by destruct l. Qed.
Lemma out_view_dsub s id k ins outs subs i : shape k ins outs subs -> i < length outs ->
  out_view id k (s <$> ins) outs (map (dregion s) subs) i = vsub s (out_view id k ins outs subs i).
Proof.
  intros Hs Hi. destruct k; cbn [out_view vsub shape] in *; try done.
  - destruct Hs as [Hne Hf]. f_equal; [apply nth_fmap; destruct ins; [done | cbn; lia]|]. change (gamma_branch (s <$> ins) i <$> map (dregion s) subs) with (map (gamma_branch (s <$> ins) i) (map (dregion s) subs)).
    change (gamma_branch ins i <$> subs) with (map (gamma_branch ins i) subs). rewrite !map_map.
    apply map_ext_in. intros r Hr%elem_of_list_In. rewrite Forall_forall in Hf. destruct (Hf r Hr) as [H1 H2]. unfold gamma_branch. rewrite rargs_dregion, rres_dregion, tail_fmap.
    rewrite nth_fmap by lia. by rewrite zip_fmap_r.
  - destruct Hs as (r & -> & H1 & H2 & H3). cbn [map nth]. rewrite rres_dregion. rewrite !nth_fmap by lia. f_equal. unfold loop_vars. rewrite rargs_dregion, rres_dregion, tail_fmap.
    generalize (tail (rres r)) as q. generalize (rargs r) as a. clear. intros a. revert ins. induction a as [|a0 a IH]; intros [|x ins] [|y q]; try done. cbn. f_equal. apply IH.
  - destruct Hs as (r & -> & H1 & H2). cbn [map nth]. by rewrite rargs_dregion, rres_dregion.
  - destruct Hs as (r & -> & H1 & H2). cbn [map nth]. rewrite rres_dregion. by rewrite nth_fmap by lia.
  - destruct Hs as (r & -> & H1 & H2 & H3 & H4). cbn [map nth]. by rewrite rres_dregion.
Qed.
Lemma arg_view_dsub s k ins outs subs r i : shape k ins outs subs -> r ∈ subs -> i < length (rargs r) ->
  arg_view k (s <$> ins) outs (dregion s r) i = vsub s (arg_view k ins outs r i).
Proof.
  intros Hs Hr Hi. destruct k; cbn [arg_view shape] in *.
  - subst. by apply elem_of_nil in Hr.
  - destruct Hs as [-> _]. by apply elem_of_nil in Hr.
  - destruct Hs as [_ Hf]. rewrite Forall_forall in Hf. destruct (Hf r Hr) as [H1 H2]. cbn [vsub]. by rewrite nth_fmap by lia.
  - destruct Hs as (r0 & -> & H1 & H2 & H3). apply elem_of_list_singleton in Hr as ->. cbn [vsub]. by rewrite nth_fmap by lia.
  - destruct Hs as (r0 & -> & H1 & H2). apply elem_of_list_singleton in Hr as ->. case_decide; [done|]. cbn [vsub]. by rewrite nth_fmap by lia.
  - destruct Hs as (r0 & -> & H1 & H2). apply elem_of_list_singleton in Hr as ->. rewrite rres_dregion, fmap_length. case_decide; cbn [vsub]; by rewrite nth_fmap by lia.
  - destruct Hs as (r0 & -> & H1 & H2 & H3 & _). apply elem_of_list_singleton in Hr as ->. cbn [vsub]. by rewrite nth_fmap by lia.
Qed.
Definition dsub (s : oid -> oid) (d : oid * view) : oid * view := (d.1, vsub s d.2).
Lemma index_dsub {A} s (f g : nat -> view) (l : list A) : (forall i, i < length l -> f i = vsub s (g i)) -> index f l = map (fun d => (d.1, vsub s d.2)) (index g l).
Proof.
  intros H. unfold index. change (map (fun d : A * view => (d.1, vsub s d.2)) (imap (fun i a => (a, g i)) l)) with ((fun d : A * view => (d.1, vsub s d.2)) <$> imap (fun i a => (a, g i)) l). rewrite fmap_imap. apply imap_ext. intros i x Hi. cbn. f_equal. apply H. by eapply lookup_lt_Some.
Qed.
Lemma mjoin_map_map {A B C} (g : B -> C) (f : A -> list B) l : map g (mjoin (map f l)) = mjoin (map (fun x => map g (f x)) l).
Proof. induction l as [|x l IH]; [done|]. change (mjoin (map f (x :: l))) with (f x ++ mjoin (map f l)). rewrite map_app, IH. done. Qed.
Lemma defs_dsub s : (forall n, wf_node n -> ndefs (dnode s n) = map (dsub s) (ndefs n)) /\ (forall r, wf_region r -> rdefs (dregion s r) = map (dsub s) (rdefs r)).
Proof.
  apply tree_ind.
  - intros id k ins outs subs IH [Hsh Hw]%wf_node_unfold. rewrite dnode_unfold. cbn [ndefs]. rewrite map_app. f_equal.
    + apply index_dsub. intros i Hi. by apply out_view_dsub.
    + rewrite mjoin_map_map, map_map. f_equal. apply map_ext_in. intros r Hr%elem_of_list_In. rewrite Forall_forall in IH, Hw. rewrite map_app, rargs_dregion. f_equal; [|by apply IH; auto].
      apply index_dsub. intros i Hi. by eapply arg_view_dsub.
  - intros args res ns IH [Hw _]. rewrite dregion_unfold. cbn [rdefs]. rewrite mjoin_map_map, map_map. f_equal. apply map_ext_in. intros n Hn%elem_of_list_In. apply wf_list_Forall in Hw.
    rewrite Forall_forall in IH, Hw. by apply IH; auto.
Qed.
Lemma defs_dregion s t : wf_region t -> defs (dregion s t) = map (dsub s) (defs t).
Proof. intros Hw. unfold defs. rewrite rargs_dregion, map_app, (proj2 (defs_dsub s)) by done. f_equal. by rewrite map_map. Qed.
Lemma elem_of_dsub s t o w' : wf_region t -> (o, w') ∈ defs (dregion s t) <-> exists w, (o, w) ∈ defs t /\ w' = vsub s w.
Proof.
  intros Hw. rewrite defs_dregion by done. rewrite elem_of_list_In, in_map_iff. split.
  - intros ([o0 w] & [= <- <-] & H%elem_of_list_In). eauto.
  - intros (w & H%elem_of_list_In & ->). exists (o, w). done.
Qed.
Lemma keys_dregion s t : wf_region t -> (defs (dregion s t)).*1 = (defs t).*1.
Proof.
  intros Hw. rewrite defs_dregion by done. change ((map (dsub s) (defs t)).*1) with (map fst (map (dsub s) (defs t))). rewrite map_map. change ((defs t).*1) with (map fst (defs t)). by apply map_ext.
Qed.
Lemma ids_dsub s : (forall n, node_ids (dnode s n) = node_ids n) /\ (forall r, region_ids (dregion s r) = region_ids r).
Proof.
  apply tree_ind.
  - intros id k ins outs subs IH. rewrite dnode_unfold. cbn [node_ids]. do 2 f_equal. rewrite map_map. apply map_ext_in. intros r Hr%elem_of_list_In. rewrite Forall_forall in IH. auto.
  - intros args res ns IH. rewrite dregion_unfold. cbn [region_ids]. f_equal. rewrite map_map. apply map_ext_in. intros n Hn%elem_of_list_In. rewrite Forall_forall in IH. auto.
Qed.

(** ** well-formedness: the new origin is available where the old one is *)
Definition avail_ok (s : oid -> oid) : list oid -> list node -> Prop :=
  fix go av ns := match ns with
  | [] => True
  | n :: ns => (forall x, x ∈ nouts n -> s x ∈ av ++ nouts n) /\ go (av ++ nouts n) ns
  end.
Fixpoint dok_node (s : oid -> oid) (n : node) : Prop :=
  let 'Node id k ins outs subs := n in fold_right and True (map (dok_region s) subs)
with dok_region (s : oid -> oid) (r : region) : Prop :=
  let 'Region args res ns := r in (forall x, x ∈ args -> s x ∈ args) /\ avail_ok s args ns /\ fold_right and True (map (dok_node s) ns).
Lemma avail_all s av ns : (forall x, x ∈ av -> s x ∈ av) -> avail_ok s av ns -> forall x, x ∈ av ++ own ns -> s x ∈ av ++ own ns.
Proof.
  revert av. induction ns as [|n ns IH]; intros av Ha Hok x.
  - change (own []) with (@nil nat). rewrite app_nil_r. apply Ha.
  - change (own (n :: ns)) with (nouts n ++ own ns). rewrite app_assoc. cbn [avail_ok] in Hok. destruct Hok as [H1 H2]. apply IH; [|done].
    intros y. rewrite elem_of_app. intros [Hy|Hy]; [apply elem_of_app; left; auto | auto].
Qed.
Lemma own_dnode s ns : own (map (dnode s) ns) = own ns.
Proof. unfold own. rewrite map_map. f_equal. apply map_ext. intros n. by rewrite nouts_dnode. Qed.
Lemma wf_list_dnode s av ns : (forall x, x ∈ av -> s x ∈ av) -> avail_ok s av ns -> wf_list wf_node av ns -> Forall (fun n => wf_node (dnode s n)) ns -> wf_list wf_node av (map (dnode s) ns).
Proof.
  revert av. induction ns as [|n ns IH]; intros av Ha Hok Hw Hf; [done|]. cbn [map wf_list avail_ok] in *. destruct Hok as [Hok1 Hok2], Hw as (Hw1 & Hw2 & Hw3). apply Forall_cons in Hf as [Hf1 Hf2].
  rewrite nins_dnode, nouts_dnode. split; [|split; [done|]].
  - apply Forall_fmap. eapply Forall_impl; [exact Hw1|]. cbn. auto.
  - apply IH; try done. intros x. rewrite !elem_of_app. intros [Hx|Hx]; [left; auto|]. apply elem_of_app. auto.
Qed.
Lemma wf_dregion s : (forall n, wf_node n -> dok_node s n -> wf_node (dnode s n)) /\ (forall r, wf_region r -> dok_region s r -> wf_region (dregion s r)).
Proof.
  apply tree_ind.
  - intros id k ins outs subs IH [Hsh Hw]%wf_node_unfold Hok. rewrite dnode_unfold. apply wf_node_unfold. cbn [dok_node] in Hok. rewrite fold_and in Hok. split.
    + destruct k; cbn [shape] in *; rewrite ?fmap_length; try done.
      * by subst.
      * destruct Hsh as [-> ?]. done.
      * destruct Hsh as [Hne Hf]. split; [by destruct ins|]. apply Forall_forall. intros r' Hr'. apply elem_of_list_In, in_map_iff in Hr' as (r & <- & Hr%elem_of_list_In). rewrite rargs_dregion, rres_dregion, fmap_length.
        rewrite Forall_forall in Hf. by apply Hf.
      * destruct Hsh as (r & -> & H). exists (dregion s r). rewrite rargs_dregion, rres_dregion, fmap_length. done.
      * destruct Hsh as (r & -> & H). exists (dregion s r). rewrite rargs_dregion. done.
      * destruct Hsh as (r & -> & H). exists (dregion s r). rewrite rargs_dregion, rres_dregion, fmap_length. done.
      * destruct Hsh as (r & -> & H1 & H2 & H3 & H4). exists (dregion s r). rewrite rargs_dregion, rres_dregion, rnodes_dregion, fmap_length. do 4 (split; [done|]). rewrite Forall_forall in H4 |- *.
        intros n' Hn'. apply elem_of_list_In, in_map_iff in Hn' as (n & <- & Hn%elem_of_list_In). rewrite nkind_dnode. auto.
    + rewrite Forall_forall in IH, Hw, Hok |- *. intros r' Hr'. apply elem_of_list_In, in_map_iff in Hr' as (r & <- & Hr%elem_of_list_In). auto.
  - intros args res ns IH [Hw Hres] (H1 & H2 & H3). rewrite fold_and in H3. rewrite dregion_unfold. split.
    + apply wf_list_dnode; try done. apply wf_list_Forall in Hw. rewrite Forall_forall in IH, Hw, H3 |- *. auto.
    + rewrite own_dnode. apply Forall_fmap. rewrite Forall_forall in Hres |- *. intros x Hx. cbn. apply avail_all; auto.
Qed.
