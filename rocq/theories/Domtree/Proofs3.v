(** Indices; the tree that is built; all together. *)
From stdpp Require Import base list fin_sets gmap fin_maps.
From Coq Require Import Lia.
From Verif.Cfg Require Import Model.
From Verif.Domtree Require Import Model Spec Proofs1 Proofs2.

Lemma number_lookup l : forall i j x, NoDup l -> l !! j = Some x -> number l i !! x = Some (i - j).
Proof.
  induction l as [|y l IH]; intros i j x Hn Hj; [done|]. apply NoDup_cons in Hn as [Hy Hn]. cbn [number]. destruct j as [|j]; cbn in Hj.
  - injection Hj as <-. rewrite lookup_insert. f_equal. lia.
  - rewrite lookup_insert_ne; [|intros ->; apply Hy; by eapply elem_of_list_lookup_2]. rewrite (IH (pred i) j x Hn Hj). f_equal. lia.
Qed.

Section Tree.
  Context (g : cfg) (rpo : list nat) (idx : nat -> nat) (D : gmap nat nat) (n : nat).
  Hypothesis Hlt : forall v d, v <> entry -> D !! v = Some d -> idx v < idx d /\ d ∈ rpo.
  Hypothesis Hall : forall v, v ∈ rpo -> is_Some (D !! v).
  Hypothesis Hn : forall v, v ∈ rpo -> idx v <= n.
  Definition D' : gmap nat nat := delete entry D.
  Lemma D'_some v d : D' !! v = Some d <-> v <> entry /\ D !! v = Some d.
  Proof. unfold D'. rewrite lookup_delete_Some. split; intros [H1 H2]; split; congruence. Qed.
  Record is_tree (t : tree) : Prop := {
    tr_root : t !! entry = Some (None, 0);
    tr_node v pd k : v <> entry -> t !! v = Some (pd, k) -> exists d k', pd = Some d /\ k = S k' /\ D !! v = Some d /\ exists o, t !! d = Some (o, k');
  }.
  Lemma build_ok fuel : forall v t, is_tree t -> v ∈ rpo -> n - idx v < fuel -> exists t', build fuel D' v t = Some t' /\ is_tree t' /\ t ⊆ t' /\ is_Some (t' !! v).
  Proof.
    induction fuel as [|fuel IH]; intros v t Ht Hv Hf; [lia|]. cbn [build]. destruct (t !! v) as [e|] eqn:Ev; [exists t; split; [done|]; split; [done|]; split; [done|]; by eexists|].
    assert (Hve : v <> entry) by (intros ->; by rewrite (tr_root t Ht) in Ev). destruct (Hall v Hv) as [d Hd]. destruct (Hlt v d Hve Hd) as [L Hdn]. pose proof (Hn d Hdn). rewrite (proj2 (D'_some v d) (conj Hve Hd)). cbn [mbind option_bind].
    destruct (IH d t Ht Hdn) as (t' & E & Ht' & Hsub & [[o k] Hk]); [lia|]. rewrite E. cbn [mbind option_bind]. rewrite Hk. cbn [mbind option_bind snd].
    destruct (t' !! v) as [[o' k']|] eqn:Ev'.
    - exists t'. assert (Hid : <[v:=(Some d, S k)]> t' = t').
      { apply insert_id. rewrite Ev'. destruct (tr_node t' Ht' v o' k' Hve Ev') as (d2 & k2 & -> & -> & Hd2 & o2 & Ho2). rewrite Hd in Hd2. injection Hd2 as <-. rewrite Hk in Ho2. injection Ho2 as _ <-. done. }
      rewrite Hid. split; [done|]. split; [done|]. split; [done|]. by eexists.
    - exists (<[v:=(Some d, S k)]> t'). assert (Hsub' : t' ⊆ <[v:=(Some d, S k)]> t') by (by apply insert_subseteq). split; [done|]. split; [|split; [by etrans | rewrite lookup_insert; by eexists]]. constructor.
      + rewrite lookup_insert_ne by done. by apply tr_root.
      + intros w pd kw Hwe Hw. destruct (decide (w = v)) as [->|Hwv].
        * rewrite lookup_insert in Hw. injection Hw as <- <-. exists d, k. split; [done|]. split; [done|]. split; [done|]. exists o. by eapply lookup_weaken.
        * rewrite lookup_insert_ne in Hw by done. destruct (tr_node t' Ht' w pd kw Hwe Hw) as (d2 & k2 & H1 & H2 & H3 & o2 & H4). exists d2, k2. split; [done|]. split; [done|]. split; [done|]. exists o2. by eapply lookup_weaken.
  Qed.
  Lemma build_all_ok fuel : n < fuel -> forall l t, is_tree t -> (forall v, v ∈ l -> v ∈ rpo) -> exists t', build_all fuel D' l t = Some t' /\ is_tree t' /\ t ⊆ t' /\ forall v, v ∈ l -> is_Some (t' !! v).
  Proof.
    intros Hf. induction l as [|v l IH]; intros t Ht Hl; cbn [build_all].
    - exists t. split; [done|]. split; [done|]. split; [done|]. intros v Hv. by apply elem_of_nil in Hv.
    - destruct (build_ok fuel v t Ht) as (t' & E & Ht' & Hsub & Hv); [apply Hl; left | lia|]. rewrite E. cbn [mbind option_bind]. destruct (IH t' Ht') as (t'' & E' & Ht'' & Hsub' & Hl'); [intros w Hw; apply Hl; by right|].
      exists t''. split; [done|]. split; [done|]. split; [by etrans|]. intros w Hw. apply elem_of_cons in Hw as [->|Hw]; [|by apply Hl']. destruct Hv as [e He]. exists e. by eapply lookup_weaken.
  Qed.
  Lemma tree_up t a x : is_tree t -> anc D a x -> D !! entry = Some entry -> is_Some (t !! x) -> is_Some (t !! a).
  Proof.
    intros Ht H He. induction H as [|a x d Hd H IH]; intros Hx; [done|]. apply IH. destruct (decide (x = entry)) as [->|Hxe].
    - rewrite He in Hd. injection Hd as <-. done.
    - destruct Hx as [[pd k] Hx]. destruct (tr_node t Ht x pd k Hxe Hx) as (d2 & k2 & _ & _ & Hd2 & o & Ho). rewrite Hd in Hd2. injection Hd2 as <-. by eexists.
  Qed.
  Lemma leaf_below : (forall v d, D !! v = Some d -> v ∈ rpo) -> (forall v, v ∈ rpo <-> v ∈ nodes g) -> blocks g !! entry = None -> forall k v, idx v < k -> v ∈ rpo -> exists u, u ∈ leaves g D' /\ anc D v u.
  Proof.
    intros Hdom Hr Hb. induction k as [|k IH]; intros v Hk Hv; [lia|]. destruct (decide (Forall (fun w => D' !! w <> Some v) (map_to_list (blocks g)).*1)) as [HF|HF].
    - exists v. split; [|constructor]. apply elem_of_list_filter. split; [done|]. by apply Hr.
    - apply not_Forall_Exists in HF; [|intros w; apply _]. apply Exists_exists in HF as (w & Hw & Hd). apply dec_stable in Hd. apply D'_some in Hd as [Hwe Hd]. destruct (Hlt w v Hwe Hd) as [L _].
      destruct (IH w) as (u & Hu & Ha); [lia | by eapply Hdom|]. exists u. split; [done|]. eapply anc_trans; [|exact Ha]. eapply anc_up; [done | constructor].
  Qed.
End Tree.

Section Main.
  Context (g : cfg) (inedges : nat -> list nat).
  Hypothesis Hc : connected g.
  Hypothesis Hedge : forall v p, p ∈ inedges v <-> v ∈ sinks g p.
  Lemma in_nodes x : x ∈ nodes g <-> x = entry \/ x = exit \/ is_Some (blocks g !! x).
  Proof.
    unfold nodes. rewrite !elem_of_cons, elem_of_list_fmap. split.
    - intros [?|[?|([k b] & -> & Hk)]]; [by left | right; by left | right; right]. apply elem_of_map_to_list in Hk. by eexists.
    - intros [?|[?|[b Hb]]]; [by left | right; by left | right; right]. exists (x, b). split; [done|]. by apply elem_of_map_to_list.
  Qed.
  Lemma sinks_nodes p m : m ∈ sinks g p -> m ∈ nodes g /\ p ∈ nodes g.
  Proof.
    destruct Hc as (_ & _ & H & _). intros Hm. split; rewrite in_nodes.
    - right. by eapply H.
    - unfold sinks in Hm. destruct (decide (p = entry)) as [->|Hp]; [by left|]. right. right. destruct (blocks g !! p) as [b|]; [by eexists | by apply elem_of_nil in Hm].
  Qed.
  Lemma nodes_nodup : NoDup (nodes g).
  Proof.
    destruct Hc as (H1 & H2 & _). assert (H : forall x, blocks g !! x = None -> x ∉ (map_to_list (blocks g)).*1). { intros x Hx Hin. apply elem_of_list_fmap in Hin as ([k b] & -> & Hk). apply elem_of_map_to_list in Hk. cbn in Hx. congruence. }
    unfold nodes. apply NoDup_cons. split; [|apply NoDup_cons; split; [by apply H | apply NoDup_fst_map_to_list]]. intros Hin. apply elem_of_cons in Hin as [Hin|Hin]; [discriminate Hin | by apply (H entry)].
  Qed.
  Definition position (l : list nat) (x : nat) : nat := default 0 (fst <$> list_find (x =.) l).
  Lemma domtree_ok arrange : (forall l : list nat, arrange l ≡ₚ l) -> exists t, domtree g inedges arrange = Some t /\
    t !! entry = Some (None, 0) /\ (forall v, is_Some (t !! v) <-> v ∈ nodes g) /\
    (forall v pd k, v <> entry -> t !! v = Some (pd, k) -> exists d k', pd = Some d /\ k = S k' /\ idom g d v /\ exists o, t !! d = Some (o, k')).
  Proof.
    intros Harr. pose proof Hc as (Hb1 & Hb2 & Hs & Hw). assert (Hsk : forall n m, m ∈ sinks g n -> m ∈ nodes g) by (intros n m H; by apply sinks_nodes in H as [H _]).
    destruct (postorder_ok g Hsk) as (l & E & [V1 V2 V3 V4 V5]). set (rpo := reverse (l ++ [entry])).
    assert (Hmem : forall x, x ∈ rpo <-> x = entry \/ x ∈ l) by (intros x; unfold rpo; rewrite elem_of_reverse, elem_of_app, elem_of_list_singleton; tauto).
    assert (Hel : entry ∉ l) by (intros H; apply V2 in H as [H _]; by apply H, elem_of_singleton).
    assert (Hwalk : forall k x, walk g k x -> x ∈ rpo).
    { intros k x H. induction H as [|k p v H IH Hv]; [apply Hmem; by left|]. apply Hmem. apply Hmem in IH as [->|IH]; [destruct (V5 v Hv) as [H1|H1] | destruct (V4 p v IH Hv) as [H1|H1]]; try (by right); apply elem_of_singleton in H1; by left. }
    assert (Hrn : forall x, x ∈ rpo <-> x ∈ nodes g).
    { intros x. split; [intros [->|Hx]%Hmem; [apply in_nodes; by left | by apply V2 in Hx as [_ Hx]]|]. intros [->|Hx]%in_nodes; [apply Hmem; by left|]. destruct (Hw x Hx) as [k Hk]. by eapply Hwalk. }
    assert (Hnd : NoDup rpo). { unfold rpo. rewrite reverse_Permutation. apply NoDup_app. split; [done|]. split; [|apply NoDup_singleton]. intros x Hx Hx'. apply elem_of_list_singleton in Hx' as ->. done. }
    assert (Hlen : length rpo = size (blocks g) + 2). { rewrite (Permutation_length (NoDup_Permutation _ _ Hnd nodes_nodup Hrn)). unfold nodes. cbn [length]. rewrite fmap_length. change (size (blocks g)) with (length (map_to_list (blocks g))). lia. }
    set (n := length rpo) in *. set (ix := number rpo n). set (idx := fun x => default 0 (ix !! x)).
    assert (Hpos : forall j x, rpo !! j = Some x -> ix !! x = Some (n - j) /\ idx x = n - j /\ j < n). { intros j x Hj. unfold idx, ix. rewrite (number_lookup rpo n j x Hnd Hj). split; [done|]. split; [done|]. by eapply lookup_lt_Some. }
    assert (Hentry : entry ∈ rpo) by (apply Hmem; by left).
    assert (H0 : rpo = entry :: reverse l) by (unfold rpo; by rewrite reverse_app).
    assert (Hsrc : forall v p, v ∈ sinks g p -> p ∈ rpo) by (intros v p H; apply Hrn; by apply sinks_nodes in H as [_ H]).
    assert (Hix : forall x, x ∈ rpo -> ix !! x = Some (idx x)) by (intros x Hx; apply elem_of_list_lookup in Hx as [j Hj]; destruct (Hpos j x Hj) as (H1 & H2 & _); congruence).
    assert (Hinj : forall x y, x ∈ rpo -> y ∈ rpo -> idx x = idx y -> x = y).
    { intros x y Hx Hy Exy. apply elem_of_list_lookup in Hx as [j Hj]. apply elem_of_list_lookup in Hy as [k Hk]. destruct (Hpos j x Hj) as (_ & E1 & L1). destruct (Hpos k y Hk) as (_ & E2 & L2). assert (j = k) as -> by lia. congruence. }
    assert (HM : forall x, x ∈ rpo -> idx x <= n) by (intros x Hx; apply elem_of_list_lookup in Hx as [j Hj]; destruct (Hpos j x Hj) as (_ & E1 & _); lia).
    assert (Hsplit : forall l1 x l2 y, rpo = l1 ++ x :: l2 -> y ∈ rpo -> (y ∈ l1 <-> idx x < idx y)).
    { intros l1 x l2 y Er Hy. assert (Hx : rpo !! length l1 = Some x) by (rewrite Er; apply list_lookup_middle; done). destruct (Hpos _ _ Hx) as (_ & Ex & Lx). apply elem_of_list_lookup in Hy as [k Hk]. destruct (Hpos k y Hk) as (_ & Ey & Ly). rewrite Ex, Ey. split.
      - intros Hin. apply elem_of_list_lookup in Hin as [k' Hk']. pose proof (lookup_lt_Some _ _ _ Hk') as L. assert (Hk2 : rpo !! k' = Some y) by (rewrite Er; by apply lookup_app_l_Some). assert (k = k') as -> by (by eapply NoDup_lookup). lia.
      - intros L. assert (Lk : k < length l1) by lia. rewrite Er, lookup_app_l in Hk by done. by eapply elem_of_list_lookup_2. }
    assert (Htop : forall x, x ∈ rpo -> x <> entry -> idx x < idx entry).
    { intros x Hx Hxe. assert (Hin : x ∈ reverse l) by (rewrite H0 in Hx; apply elem_of_cons in Hx as [?|?]; done). apply elem_of_list_split in Hin as (l1 & l2 & El). apply (Hsplit (entry :: l1) x l2 entry); [rewrite H0, El; done | done | left]. }
    assert (Hfwd : forall x, x ∈ rpo -> x <> entry -> exists p, p ∈ inedges x /\ idx x < idx p).
    { intros x Hx Hxe. apply Hmem in Hx as [?|Hx]; [done|]. apply elem_of_list_split in Hx as (l1 & l2 & El). assert (Er : rpo = (entry :: reverse l2) ++ x :: reverse l1). { rewrite H0, El. rewrite reverse_app, reverse_cons. by rewrite <- app_assoc. }
      destruct (V3 l1 x l2 El) as [(p & Hp & Hpx)|Hpx].
      - exists p. split; [by apply Hedge|]. apply (Hsplit _ _ _ p Er); [by eapply Hsrc|]. right. by apply elem_of_reverse.
      - exists entry. split; [by apply Hedge|]. by apply Htop; [apply Hmem; right; rewrite El; apply elem_of_app; right; left|]. }
    destruct (loop_ok g inedges rpo ix idx n Hedge Hsrc Hix Hinj HM Hentry Htop Hfwd Hsplit (S (n + n)) (3 + n * S n) Hnd) as (D & EL & P); [lia | fold n; lia|].
    assert (Hcl : is_closed g = true).
    { unfold is_closed. apply forallb_forall. intros x Hx%elem_of_list_In. apply bool_decide_eq_true. apply elem_of_list_fmap in Hx as ([x' b] & -> & Hb). apply elem_of_map_to_list in Hb. cbn [fst]. destruct (Hw x') as [k Hk]; [right; by eexists|].
      inversion Hk as [|k' p v Hk' Hv]; subst; [congruence|]. apply elem_of_list_fmap. unfold edges. unfold sinks in Hv. destruct (decide (p = entry)) as [->|Hp].
      - apply elem_of_list_singleton in Hv as ->. exists (entry, start g). split; [done|]. left.
      - destruct (blocks g !! p) as [bp|] eqn:Ep; [|by apply elem_of_nil in Hv]. exists (p, x'). split; [done|]. right. apply elem_of_list_bind. exists (p, bp). split; [|by apply elem_of_map_to_list]. apply elem_of_list_fmap. by exists x'. }
    unfold domtree. rewrite Hcl. unfold reverse_postorder. rewrite E. cbn [fmap option_fmap option_map mbind option_bind]. fold rpo. rewrite decide_True by done. fold n. fold ix. fold init. rewrite EL. cbn [mbind option_bind].
    assert (Hok := ps_ok _ _ _ _ _ _ P). assert (Hall := ps_all _ _ _ _ _ _ P).
    assert (HltD : forall v d, v <> entry -> D !! v = Some d -> idx v < idx d /\ d ∈ rpo). { intros v d Hv Hd. split; [by eapply ok_idx|]. by eapply (next_node rpo idx). }
    assert (Ht0 : is_tree D {[entry := (None, 0)]}). { constructor; [apply lookup_singleton|]. intros v pd k Hv H. by apply lookup_singleton_Some in H as [<- _]. }
    destruct (build_all_ok rpo idx D n HltD Hall HM (S n) ltac:(lia) (arrange (leaves g (D' D))) _ Ht0) as (t & Et & Ht & _ & Hlv).
    { intros v Hv. rewrite Harr in Hv. apply elem_of_list_filter in Hv as [_ Hv]. by apply Hrn. }
    exists t. split; [exact Et|]. split; [by apply (tr_root D)|].
    assert (Hidom : forall v pd k, v <> entry -> t !! v = Some (pd, k) -> exists d k', pd = Some d /\ k = S k' /\ D !! v = Some d /\ exists o, t !! d = Some (o, k')) by (intros v pd k; by apply (tr_node D)).
    split.
    - intros v. split.
      + intros [[pd k] Hv]. apply Hrn. destruct (decide (v = entry)) as [->|Hve]; [done|]. destruct (Hidom v pd k Hve Hv) as (d & _ & _ & _ & Hd & _). by eapply ok_node.
      + intros Hv. apply Hrn in Hv. destruct (leaf_below g rpo idx D HltD (fun v d => ok_node _ _ _ Hok v d) Hrn Hb1 (S (idx v)) v ltac:(lia) Hv) as (u & Hu & Ha). eapply tree_up; [done | exact Ha | by eapply ok_entry|]. apply Hlv. by rewrite Harr.
    - intros v pd k Hv Hk. destruct (Hidom v pd k Hv Hk) as (d & k' & -> & -> & Hd & Ho). exists d, k'. split; [done|]. split; [done|]. split; [|done].
      eapply (fix_idom g inedges rpo idx n); try done. by eapply ok_node.
  Qed.
End Main.
