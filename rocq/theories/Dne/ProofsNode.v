(** The sweep of nodes and regions. *)
From stdpp Require Import base list list_numbers fin_sets gmap relations.
From Verif.Rvsdg Require Import Model Spec Sem Wf WfFacts ListFacts.
From Verif.Dne Require Import Model Spec ProofsMark Rel ProofsList.

Lemma remove_arguments_ok p args res ns :
  (forall i a, args !! i = Some a -> p i = true -> is_used a ns res = false) ->
  remove_arguments p (Region args res ns) = Some (Region (drop_at p args) res ns).
Proof.
  intros H. unfold remove_arguments. cbn [rargs]. rewrite (proj2 (forallb_forall _ _)); [done|].
  intros [i a] Hi%elem_of_list_In. apply elem_of_lookup_imap in Hi as (j & b & [= -> ->] & Hj). destruct (p j) eqn:E; [|done]. cbn [negb orb].
  unfold unused. cbn [rnodes rres]. by rewrite (H j b Hj E).
Qed.
Lemma prune_inputs_ok A C ins res ns : length C = length ins ->
  prune_inputs (length A) ins (Region (A ++ C) res ns) =
  let d i := negb (is_used (nth i C 0) ns res) in Some (drop_at d ins, Region (A ++ drop_at d C) res ns).
Proof.
  intros Hlen. unfold prune_inputs. cbn [rargs]. rewrite remove_arguments_ok.
  - cbn [mbind option_bind]. cbv zeta. f_equal. f_equal.
    + apply drop_at_ext. intros i Hi. rewrite (proj2 (Nat.leb_le _ _)) by lia. cbn [andb]. unfold unused. cbn [rnodes rres].
      rewrite app_nth2 by lia. do 2 f_equal. f_equal. lia.
    + f_equal. rewrite drop_at_app. f_equal.
      * apply drop_at_none. intros i Hi. rewrite (proj2 (Nat.leb_gt _ _)) by lia. done.
      * apply drop_at_ext. intros i Hi. rewrite (proj2 (Nat.leb_le _ _)) by lia. cbn [andb]. unfold unused. cbn [rnodes rres].
        rewrite app_nth2 by lia. do 2 f_equal. f_equal. lia.
  - intros i a Hi [_ H]%andb_true_iff. unfold unused in H. cbn [rnodes rres] in H. rewrite (nth_elem _ _ _ _ Hi) in H. by apply negb_true_iff.
Qed.
Lemma drop_at_redirect p args l : drop_at p (redirect p args l) = drop_at p l.
Proof.
  unfold redirect. revert p args. induction l as [|x l IH]; intros p args; [done|]. rewrite imap_cons. cbn [drop_at]. destruct (p 0) eqn:E; cbn.
  - specialize (IH (fun i => p (S i)) (tail args)). rewrite <-IH. f_equal. apply imap_ext. intros i y _. cbn. destruct args; [by destruct i | done].
  - f_equal. specialize (IH (fun i => p (S i)) (tail args)). rewrite <-IH. f_equal. apply imap_ext. intros i y _. cbn. destruct args; [by destruct i | done].
Qed.
Lemma redirect_lookup p args l i x : redirect p args l !! i = Some x -> exists y, l !! i = Some y /\ x = if p i then nth i args 0 else y.
Proof. unfold redirect. rewrite list_lookup_imap. destruct (l !! i) as [y|]; [|done]. cbn. intros [= <-]. eauto. Qed.
Lemma next_refs w x : x ∈ mark_next w -> x ∈ refs w.
Proof.
  destruct w; cbn [mark_next refs]; try done.
  - by intros ?%elem_of_nil.
  - rewrite !elem_of_cons. intros [?|H]; [auto|]. right. apply elem_of_list_fmap in H as ([y c] & -> & H). apply elem_of_list_fmap in H as ([[y' c'] es] & [= -> ->] & H).
    apply elem_of_mjoin_map. exists (y', c', es). split; [done | left].
  - rewrite !elem_of_cons. set_solver.
  - destruct res as [|y res]; [done|]. intros ->%elem_of_list_singleton. left.
Qed.
Lemma arg_view_not_simple k ins outs r i : is_simple (arg_view k ins outs r i) = false.
Proof. unfold arg_view. destruct k; repeat case_decide; done. Qed.

Lemma fst_mjoin {A B C} (f : A -> list (B * C)) l : (mjoin (map f l)).*1 = mjoin (map (fun x => (f x).*1) l).
Proof. induction l as [|x l IH]; [done|]. change (mjoin (map f (x :: l))) with (f x ++ mjoin (map f l)). rewrite fmap_app, IH. done. Qed.
Lemma nkeys_eq id k ins outs subs : (ndefs (Node id k ins outs subs)).*1 = outs ++ mjoin (map (fun r => rargs r ++ (rdefs r).*1) subs).
Proof.
  cbn [ndefs]. rewrite fmap_app, index_fst. f_equal. rewrite fst_mjoin. f_equal. apply map_ext. intros r. by rewrite fmap_app, index_fst.
Qed.
Lemma rkeys_eq args res ns : (rdefs (Region args res ns)).*1 = mjoin (map (fun n => (ndefs n).*1) ns).
Proof. cbn [rdefs]. apply fst_mjoin. Qed.
Lemma NoDup_mjoin_elem {A B} (f : A -> list B) l x : NoDup (mjoin (map f l)) -> x ∈ l -> NoDup (f x).
Proof.
  induction l as [|y l IH]; [by intros _ ?%elem_of_nil|]. change (mjoin (map f (y :: l))) with (f y ++ mjoin (map f l)).
  rewrite NoDup_app, elem_of_cons. intros (H1 & _ & H2) [->|?]; auto.
Qed.
Lemma own_nodup ns : NoDup (mjoin (map (fun n => (ndefs n).*1) ns)) -> NoDup (own ns).
Proof.
  induction ns as [|n ns IH]; [done|]. rewrite own_cons.
  change (mjoin (map (fun n => (ndefs n).*1) (n :: ns))) with ((ndefs n).*1 ++ mjoin (map (fun n => (ndefs n).*1) ns)). rewrite !NoDup_app. intros (H1 & H2 & H3). split; [|split; [|auto]].
  - destruct n. rewrite nkeys_eq in H1. by apply NoDup_app in H1 as [? _].
  - intros x Hx Hx'. apply (H2 x); [by apply nouts_nkeys|]. apply elem_of_own in Hx' as (n' & Hn' & Hx'). apply elem_of_mjoin_map. exists n'. split; [done | by apply nouts_nkeys].
Qed.
Lemma wf_list_mono (f g : node -> Prop) av ns : (forall n, f n -> g n) -> wf_list f av ns -> wf_list g av ns.
Proof. intros H. revert av. induction ns as [|n ns IH]; intros av; cbn [wf_list]; [done|]. intros (? & ? & ?). auto. Qed.
Lemma dead_args_shrink (p : nat -> bool) (args : list oid) x (P : Prop) : (forall i, args !! i = Some x -> p i = true -> ~ P) -> P -> x ∈ args -> x ∈ drop_at p args.
Proof. intros H HP [i Hi]%elem_of_list_lookup. apply drop_at_elem. exists i. split; [done|]. destruct (p i) eqn:E; [|done]. by destruct (H i Hi E). Qed.

Lemma sweep_region_unfold c args res0 ns res : sweep_region c (Region args res0 ns) res = (st ← sweep_list c (sweep_node c) res ns; Some (Region args st.2 st.1)).
Proof. done. Qed.

Section Node.
  Context (t : region) (c : ctx).
  Context (Hnd : NoDup (defs t).*1) (Hcl : closed t c).
  Context (Hkeys : forall o w x, (o, w) ∈ defs t -> x ∈ refs w -> x ∈ (defs t).*1).
  Local Notation liveo := (liveo t c).
  Local Notation edge := (edge t c).
  Local Notation byp := (byp t c).
  Local Notation rsl := (rsl t c).
  Local Notation vrel := (vrel t c).
  Local Notation esrel := (esrel t c).
  Local Notation lvrel := (lvrel t c).

  Lemma next_live o w x : (o, w) ∈ defs t -> is_simple w = false -> o ∈ couts c -> x ∈ mark_next w -> liveo x.
  Proof using Hnd Hcl Hkeys.
    intros Hw Hs Ho Hx. apply (lvl_liveo t c Hnd); [eapply Hkeys; [exact Hw | by apply next_refs]|].
    specialize (Hcl o w Hw). destruct w; try discriminate; specialize (Hcl Ho); rewrite Forall_forall in Hcl; by apply Hcl.
  Qed.
  Lemma live_couts o w : (o, w) ∈ defs t -> is_simple w = false -> liveo o -> o ∈ couts c.
  Proof using Hnd. clear Hcl Hkeys. intros Hw Hs Hl. pose proof (live_unique t c Hnd _ _ Hw Hl) as H. destruct w; try discriminate; exact H. Qed.
  Lemma live_next o w x : (o, w) ∈ defs t -> is_simple w = false -> liveo o -> x ∈ mark_next w -> liveo x.
  Proof using Hnd Hcl Hkeys. intros Hw Hs Hl Hx. eapply next_live; eauto. eapply live_couts; eauto. Qed.
  Lemma nonsimple_not_byp o w : (o, w) ∈ defs t -> is_simple w = false -> ~ byp o.
  Proof using Hnd. clear Hcl Hkeys. intros Hw Hs (id & op & k & ins & Hd & _). rewrite (defs_fun _ _ _ _ Hnd Hw Hd) in Hs. discriminate. Qed.

  Lemma esrel_drop (s : oid -> oid) p args ins : length args = length ins ->
    (forall i a, args !! i = Some a -> p i = true -> ~ liveo a) -> (forall i x, ins !! i = Some x -> p i = false -> rsl x (s x)) ->
    esrel (zip args ins) (zip (drop_at p args) (s <$> drop_at p ins)).
  Proof using.
    clear. revert p ins. induction args as [|a args IH]; intros p [|x ins]; try done; [intros; constructor|]. cbn [drop_at zip zip_with]. intros [= Hl] Ha Hx.
    assert (IH' := IH (fun i => p (S i)) ins Hl (fun i => Ha (S i)) (fun i => Hx (S i))). destruct (p 0) eqn:E.
    - apply es_drop; [by apply (Ha 0) | done].
    - rewrite fmap_cons. apply es_keep; [by apply (Hx 0) | done].
  Qed.
  Lemma lvrel_drop (s s2 : oid -> oid) p args ins posts : length args = length ins -> length ins = length posts ->
    (forall i a, args !! i = Some a -> p i = true -> ~ liveo a) -> (forall i x, ins !! i = Some x -> p i = false -> rsl x (s x)) ->
    (forall i x, posts !! i = Some x -> p i = false -> rsl x (s2 x)) ->
    lvrel (zip (zip args ins) posts) (zip (zip (drop_at p args) (s <$> drop_at p ins)) (s2 <$> drop_at p posts)).
  Proof using.
    clear. revert p ins posts. induction args as [|a args IH]; intros p [|x ins] [|y posts]; try done; [intros; constructor|]. cbn [drop_at zip zip_with]. intros [= Hl] [= Hl2] Ha Hx Hy.
    assert (IH' := IH (fun i => p (S i)) ins posts Hl Hl2 (fun i => Ha (S i)) (fun i => Hx (S i)) (fun i => Hy (S i))). destruct (p 0) eqn:E.
    - apply lv_drop; [by apply (Ha 0) | done].
    - rewrite !fmap_cons. apply lv_keep; [by apply (Hx 0) | by apply (Hy 0) | done].
  Qed.

  (** alive simple nodes have an output *)
  Definition zok (n : node) : Prop := forall m, m ∈ nodes_in n -> structural (nkind m) = false -> nid m ∈ cnodes c -> nouts m <> [].
  Definition zokr (r : region) : Prop := forall m, m ∈ nodes_of r -> structural (nkind m) = false -> nid m ∈ cnodes c -> nouts m <> [].
  Definition NP (n : node) : Prop := wf_node n -> (forall d, d ∈ ndefs n -> d ∈ defs t) -> NoDup (ndefs n).*1 -> zok n -> alive_node c n = true ->
    exists n1, sweep_node c n = Some n1 /\ node_res t c n n1.
  Definition NQ (r : region) : Prop := wf_region r -> (forall d, d ∈ rdefs r -> d ∈ defs t) -> NoDup (rargs r ++ (rdefs r).*1) -> (forall x, x ∈ rargs r -> ~ byp x) -> zokr r ->
    forall (res ex : list nat), Forall (fun x => x ∈ rargs r ++ own (rnodes r)) res -> Forall (fun x => liveo x \/ x ∈ ex) res -> (forall x, x ∈ ex -> x ∈ rargs r) ->
    exists ns' s, sweep_region c r res = Some (Region (rargs r) (s <$> res) ns') /\
      Forall (fun x => liveo x -> rsl x (s x)) res /\ Forall (fun n => Forall liveo (nins n)) ns' /\ wf_list wf_node (rargs r) ns' /\
      Forall (fun x => x ∈ rargs r ++ own ns') (s <$> res) /\ Forall (fun x => liveo x \/ x ∈ ex) (s <$> res) /\
      (forall o w', (o, w') ∈ mjoin (map ndefs ns') -> exists w, (o, w) ∈ rdefs r /\ vrel w w').

  Lemma region_step args res0 ns : Forall NP ns -> NQ (Region args res0 ns).
  Proof using Hnd Hcl Hkeys.
    intros IH [Hl _] Hd Hn Hb Hz res ex Hsc Hlv Hex. cbn [rargs rnodes] in *. rewrite rkeys_eq in Hn. apply NoDup_app in Hn as (Hn1 & Hn2 & Hn3).
    assert (Hg : Forall (good_node t c (sweep_node c)) ns).
    { rewrite Forall_forall in IH. apply Forall_forall. intros n Hin. pose proof (wf_list_Forall _ _ _ Hl) as Hf. rewrite Forall_forall in Hf.
      assert (Hdn : forall d, d ∈ ndefs n -> d ∈ defs t). { intros d H. apply Hd. apply rdefs_unfold. eauto. }
      split; [done|]. split; [specialize (Hf n Hin); destruct n; by apply wf_node_unfold in Hf as [? _]|]. intros Ha. apply IH; [done | by apply Hf | done | | | done].
      - exact (NoDup_mjoin_elem (fun n => (ndefs n).*1) ns n Hn3 Hin).
      - intros m Hm. apply Hz. cbn [nodes_of]. apply elem_of_mjoin_map. eauto. }
    destruct (sweep_list_ok t c Hnd Hcl Hkeys (sweep_node c) res ex ns args) as (ns' & s & He & Hk & Hs1 & Hs2 & Hs3 & Hli & Hwf & Hr1 & Hr2); try done.
    { eapply wf_list_mono; [|exact Hl]. done. }
    { by apply own_nodup. }
    { intros x Hx Ho. apply (Hn2 x Hx). apply elem_of_own in Ho as (n & Hin & Ho). apply elem_of_mjoin_map. exists n. split; [done | by apply nouts_nkeys]. }
    assert (Hrsl : forall x, x ∈ args ++ own ns -> liveo x -> rsl x (s x)).
    { intros x Hx Hlx. split; [done|]. split; [apply Hs2|]. intros Hbx. destruct (Hs3 x Hx) as [_ H]. by apply (Hb (s x) (H Hbx)). }
    exists ns', s. rewrite sweep_region_unfold, He. cbn [mbind option_bind fst snd]. split; [done|]. split; [|split; [done|split; [done|split; [done|split; [done|]]]]].
    - rewrite Forall_forall in Hsc |- *. intros x Hx. apply Hrsl. by apply Hsc.
    - intros o w' Hw. apply elem_of_mjoin_map in Hw as (n' & Hn' & Hw).
      assert (Hn : exists n n1, n ∈ ns /\ node_res t c n n1 /\ n' = dins s n1).
      { clear -Hk Hn'. induction Hk as [|n ns ns' H IH|n n1 ns ns' Ha Hr H IH]; [by apply elem_of_nil in Hn'| |].
        - destruct (IH Hn') as (n0 & n1 & ? & ?). exists n0, n1. split; [by right | done].
        - apply elem_of_cons in Hn' as [->|Hn']; [exists n, n1; split; [left | done]|]. destruct (IH Hn') as (n0 & n2 & ? & ?). exists n0, n2. split; [by right | done]. }
      destruct Hn as (n & n1 & Hin & (Ha & Hb' & _ & _ & _ & Hsim) & ->).
      destruct (Hsim s) with (o := o) (w' := w') as (w & Hw' & Hv); [|done|].
      + pose proof (wf_list_scope _ _ _ Hl) as Hscp. rewrite Forall_forall in Hscp. specialize (Hscp n Hin). rewrite Forall_forall in Ha, Hb', Hscp |- *. intros x Hx. apply Hrsl; auto.
      + exists w. split; [|done]. apply rdefs_unfold. eauto.
  Qed.
End Node.
