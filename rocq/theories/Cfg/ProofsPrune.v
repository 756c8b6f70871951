(** Pruning leaves the reachable blocks, and preserves validity and behaviour. *)
From stdpp Require Import tactics relations base list list_numbers fin_sets gmap fin_maps.
From Verif.Construct Require Import Model Spec.
From Verif.Cfg Require Import Model Spec ProofsBase.

Lemma elem_sinks g n m : valid g -> m ∈ sinks g n <-> edge g n m.
Proof.
  intros Hv. unfold sinks, edge. destruct (valid_ends _ Hv) as (He & _). case_decide as H.
  - subst n. rewrite elem_of_list_singleton. rewrite He. split; [by left|]. intros [(_ & ->)|(b & [=] & _)]. done.
  - destruct (blocks g !! n) as [b|].
    + split; [intros Hm; right; eauto|]. intros [(-> & _)|(b' & [= <-] & Hm)]; done.
    + rewrite elem_of_nil. split; [done|]. intros [(-> & _)|(b' & [=] & Hm)]; done.
Qed.
Lemma live_disjoint g st : rtc (live_step g) ({[entry]}, ∅) st -> st.1 ## st.2.
Proof.
  intros H. assert (Hinit : ({[entry]} : gset nat, ∅ : gset nat).1 ## ({[entry]} : gset nat, ∅ : gset nat).2) by set_solver.
  induction H as [|x y z Hs _ IH]; [done|]. apply IH. destruct Hs. cbn in *. set_solver.
Qed.
Section Live.
  Context (g : cfg) (Hv : valid g).
  Lemma live_spec todo seen l : live g todo seen l ->
    (forall n, n ∈ todo \/ n ∈ seen -> reachable g n) -> (forall n m, n ∈ seen -> edge g n m -> m ∈ todo \/ m ∈ seen) ->
    (forall n, n ∈ l -> reachable g n) /\ (forall n, n ∈ todo \/ n ∈ seen -> n ∈ l) /\ (forall n m, n ∈ l -> edge g n m -> m ∈ l).
  Proof using Hv.
    induction 1 as [seen|n todo seen l Hin Hns Hl IH]; intros Hr Hc.
    - split; [auto|]. split; [set_solver|]. intros n m Hn He. destruct (Hc n m Hn He); [set_solver|done].
    - destruct IH as (H1 & H2 & H3).
      + intros k [Hk|Hk].
        * apply elem_of_union in Hk as [Hk|Hk]; [apply Hr; left; set_solver|].
          apply elem_of_difference in Hk as (Hk & _). apply elem_of_list_to_set in Hk. apply elem_sinks in Hk; [|done].
          eapply rtc_r; [|exact Hk]. apply Hr. by left.
        * apply elem_of_union in Hk as [Hk|Hk]; [apply elem_of_singleton in Hk; subst; apply Hr; by left|apply Hr; by right].
      + intros k m Hk Hkm. destruct (decide (m ∈ ({[n]} ∪ seen : gset nat))) as [|Hm]; [by right|left].
        apply elem_of_union. apply elem_of_union in Hk as [Hk|Hk].
        * apply elem_of_singleton in Hk. subst k. right. apply elem_of_difference. split; [|done]. apply elem_of_list_to_set. by apply elem_sinks.
        * left. destruct (Hc k m Hk Hkm); [|set_solver]. set_solver.
      + split; [done|]. split; [|done]. intros k Hk. apply H2. destruct (decide (k = n)) as [->|]; [right; set_solver|]. set_solver.
  Qed.
  Lemma live_reachable l : live g {[entry]} ∅ l -> forall n, n ∈ l <-> reachable g n.
  Proof using Hv.
    intros H. destruct (live_spec _ _ _ H) as (H1 & H2 & H3).
    - intros n [Hn%elem_of_singleton|Hn]; [subst; apply rtc_refl|set_solver].
    - set_solver.
    - intros n. split; [apply H1|]. intros Hr. assert (He : entry ∈ l) by (apply H2; left; by apply elem_of_singleton).
      clear H H2. unfold reachable in Hr. revert He. generalize entry Hr. clear Hr. intros e Hr. induction Hr as [|x y z Hxy _ IH]; [done|]. intros Hx. apply IH. by eapply H3.
  Qed.
  Lemma live_exists : exists l, live g {[entry]} ∅ l.
  Proof using Hv.
    set (nodes := {[entry; exit]} ∪ dom (blocks g)).
    assert (H : forall k todo seen, size (nodes ∖ seen) <= k -> todo ⊆ nodes -> todo ## seen -> exists l, live g todo seen l).
    { induction k as [|k IH]; intros todo seen Hk Hsub Hdis.
      all: destruct (decide (todo = ∅)) as [->|Hne]; [eexists; apply live_done|].
      all: apply set_choose_L in Hne as (n & Hn).
      - exfalso. assert (n ∈ nodes ∖ seen) by set_solver. assert (nodes ∖ seen ≢ ∅) by set_solver.
        assert (size (nodes ∖ seen) <> 0) by by apply size_non_empty_iff. lia.
      - destruct (IH (todo ∖ {[n]} ∪ (list_to_set (sinks g n) ∖ ({[n]} ∪ seen))) ({[n]} ∪ seen)) as (l & Hl).
        + assert (size (nodes ∖ ({[n]} ∪ seen)) < size (nodes ∖ seen)); [|lia]. apply subset_size. split; [set_solver|]. intros Hs.
          assert (n ∈ nodes ∖ seen) by set_solver. set_solver.
        + apply union_subseteq. split; [set_solver|]. intros m Hm. apply elem_of_difference in Hm as (Hm & _). apply elem_of_list_to_set in Hm.
          apply elem_sinks in Hm; [|done]. destruct (valid_edges _ Hv _ _ Hm) as [->|(b & Hb)]; [set_solver|].
          apply elem_of_union. right. by eapply elem_of_dom_2.
        + set_solver.
        + exists l. eapply live_next; [exact Hn|set_solver|exact Hl]. }
    apply (H (size nodes)); [rewrite difference_empty_L; done|set_solver|set_solver].
  Qed.
End Live.

(** the removal of the dead nodes *)
Lemma remove_deadnodes_spec l g : NoDup l -> start g ∉ l -> exists g', remove_deadnodes l g = Some g' /\ start g' = start g /\
  forall k, blocks g' !! k = if decide (k ∈ l) then None else (fun b => Block (code b) (filter (fun m => m ∉ l) (succ b))) <$> blocks g !! k.
Proof.
  revert g. induction l as [|n l IH]; intros g Hnd Hst.
  { exists g. split; [done|]. split; [done|]. intros k. rewrite decide_False by (by intros ?%elem_of_nil).
    destruct (blocks g !! k) as [[c ss]|]; [|done]. cbn. repeat f_equal. induction ss as [|x ss IH]; [done|].
    rewrite filter_cons_True by (by intros ?%elem_of_nil). by rewrite <- IH. }
  apply NoDup_cons in Hnd as (Hn & Hnd). apply not_elem_of_cons in Hst as (Hst1 & Hst2). cbn.
  rewrite remove_node_some.
  2:{ intros p [(_ & H)|(b & Hb & Hin)]; [by cbn in H|]. exfalso. cbn in Hb. rewrite lookup_fmap in Hb. destruct (blocks g !! p); [|done]. injection Hb as <-.
      cbn in Hin. by apply elem_of_list_filter in Hin as (? & _). }
  cbn. edestruct (IH (Cfg (delete n (blocks (remove_inedges n g))) (start g))) as (g' & H1 & H2 & H3); [done|done|].
  exists g'. split; [exact H1|]. split; [exact H2|]. intros k. rewrite H3. cbn. destruct (decide (k ∈ l)) as [Hk|Hk].
  - by rewrite decide_True by (by right).
  - destruct (decide (k = n)) as [->|Hkn]; [rewrite decide_True by (by left); by rewrite lookup_delete|].
    rewrite decide_False by (by intros [?|?]%elem_of_cons). rewrite lookup_delete_ne, lookup_fmap by done.
    destruct (blocks g !! k) as [[c ss]|]; [|done]. cbn. repeat f_equal. clear. induction ss as [|x ss IH]; [done|].
    destruct (decide (x = n)) as [->|Hx].
    + rewrite (filter_cons_False (fun m => m <> n)) by auto. rewrite (filter_cons_False (fun m => m ∉ n :: l)); [done|]. intros Hf. apply Hf. by left.
    + rewrite (filter_cons_True (fun m => m <> n)) by auto. destruct (decide (x ∈ l)) as [Hl|Hl].
      * rewrite (filter_cons_False (fun m => m ∉ l)) by auto. rewrite (filter_cons_False (fun m => m ∉ n :: l)); [done|]. intros Hf. apply Hf. by right.
      * rewrite (filter_cons_True (fun m => m ∉ l)) by auto. rewrite (filter_cons_True (fun m => m ∉ n :: l)); [by rewrite IH|].
        by intros [?|?]%elem_of_cons.
Qed.
Lemma update_phis_split dead l : split_phis (update_phis dead l) =
  ((fun p => (p.1, filter (fun q => q.1 ∉ dead) p.2)) <$> (split_phis l).1, (split_phis l).2).
Proof.
  induction l as [|[r ops|x] l IH]; [done| |done]. cbn [update_phis split_phis]. rewrite IH. by destruct (split_phis l).
Qed.
Lemma operand_filter (dead : gset nat) p ops : p ∉ dead -> operand p (filter (fun q => q.1 ∉ dead) ops) = operand p ops.
Proof.
  intros Hp. unfold operand. f_equal. f_equal. induction ops as [|[q v] ops IH]; [done|].
  destruct (decide (q = p)) as [->|Hq].
  - rewrite (filter_cons_True (fun x : nat * nat => x.1 ∉ dead)) by done. rewrite !(filter_cons_True (fun x : nat * nat => x.1 = p)) by done. by rewrite IH.
  - rewrite (filter_cons_False (fun x : nat * nat => x.1 = p) (q, v) ops) by done. destruct (decide (q ∈ dead)) as [Hd|Hd].
    + rewrite (filter_cons_False (fun x : nat * nat => x.1 ∉ dead)) by (intros Hf; by apply Hf). done.
    + rewrite (filter_cons_True (fun x : nat * nat => x.1 ∉ dead)) by done. rewrite (filter_cons_False (fun x : nat * nat => x.1 = p)) by done. done.
Qed.
Lemma last_update dead l p : list.last l = Some (Tac (BranchOn p)) -> list.last (update_phis dead l) = Some (Tac (BranchOn p)).
Proof.
  induction l as [|[r ops|x] l IH]; [done| |done]. cbn [update_phis]. destruct l as [|i l]; [done|]. intros H.
  assert (H' : list.last (i :: l) = Some (Tac (BranchOn p))) by done. specialize (IH H'). destruct (update_phis dead (i :: l)); [done|]. exact IH.
Qed.

Section Prune.
  Context (g : cfg) (l : gset nat) (order : gset nat -> list nat) (Hv : valid g) (Hl : live g {[entry]} ∅ l).
  Context (Horder : forall x, order x ≡ₚ elements x).
  Notation dead := (dead_nodes g l).
  Definition pruned_block (n : nat) (b : block) : block := Block (if decide (n ∈ live_sinks g dead) then update_phis dead (code b) else code b) (succ b).
  Lemma live_closed n m : n ∈ l -> edge g n m -> m ∈ l.
  Proof using Hv Hl.
    intros Hn He. apply (live_reachable g Hv l Hl) in Hn. apply (live_reachable g Hv l Hl). eapply rtc_r; [exact Hn|exact He].
  Qed.
  Lemma entry_live : entry ∈ l.
  Proof using Hv Hl. apply (live_reachable g Hv l Hl). apply rtc_refl. Qed.
  Lemma not_dead n : n ∈ l -> n ∉ dead.
  Proof using Type. intros H1 H2. unfold dead_nodes in H2; apply elem_of_difference in H2. tauto. Qed.
  Lemma prune_result : exists g', prune order l g = Some g' /\ start g' = start g /\
    forall k, blocks g' !! k = if decide (k ∈ l) then pruned_block k <$> blocks g !! k else None.
  Proof using All.
    unfold prune. edestruct (remove_deadnodes_spec (order dead)
      (Cfg (map_imap (fun n b => Some (if decide (n ∈ live_sinks g dead) then Block (update_phis dead (code b)) (succ b) else b)) (blocks g)) (start g))) as (g' & H1 & H2 & H3).
    - rewrite Horder. apply NoDup_elements.
    - cbn. rewrite Horder. intros H%elem_of_elements. revert H. apply not_dead. eapply live_closed; [apply entry_live|]. by left.
    - exists g'. split; [exact H1|]. split; [exact H2|]. intros k. rewrite H3. cbn. rewrite map_lookup_imap.
      destruct (decide (k ∈ l)) as [Hk|Hk].
      + rewrite decide_False. 2:{ rewrite Horder. intros H%elem_of_elements. by apply not_dead in H. }
        destruct (blocks g !! k) as [b|] eqn:E; [|done]. cbn. unfold pruned_block.
        assert (Hf : filter (fun m => m ∉ order dead) (succ b) = succ b).
        { assert (Hall : forall m, m ∈ succ b -> m ∉ order dead).
          { intros m Hm. rewrite Horder. intros H%elem_of_elements. revert H. apply not_dead. eapply live_closed; [exact Hk|]. right. eauto. }
          revert Hall. clear. induction (succ b) as [|x ss IH]; intros Hall; [done|]. rewrite filter_cons_True by (apply Hall; by left). f_equal. apply IH.
          intros m Hm. apply Hall. by right. }
        case_decide; cbn; by rewrite Hf.
      + destruct (decide (k ∈ order dead)) as [|Hk2]; [done|]. destruct (blocks g !! k) as [b|] eqn:E; [|done]. exfalso. apply Hk2. rewrite Horder.
        apply elem_of_elements. unfold dead_nodes. apply elem_of_difference. split; [by eapply elem_of_dom_2|done].
  Qed.
  Context (g' : cfg) (Hst : start g' = start g) (Hblocks : forall k, blocks g' !! k = if decide (k ∈ l) then pruned_block k <$> blocks g !! k else None).
  Lemma pruned_edge p m : edge g' p m <-> edge g p m /\ p ∈ l.
  Proof using All.
    unfold edge. rewrite Hst. split.
    - intros [(-> & ->)|(b & Hb & Hm)]; [split; [by left|apply entry_live]|]. rewrite Hblocks in Hb. destruct (decide (p ∈ l)); [|done].
      destruct (blocks g !! p) as [b0|]; [|done]. injection Hb as <-. split; [right; eauto|done].
    - intros ([(-> & ->)|(b & Hb & Hm)] & Hp); [by left|right]. rewrite Hblocks, decide_True, Hb by done. eexists. split; [done|]. done.
  Qed.
  Lemma not_dead_edge p n : p ∉ dead -> edge g p n -> p ∈ l.
  Proof using Hv Hl.
    intros Hp He. destruct (decide (p ∈ l)) as [|Hpl]; [done|]. destruct He as [(-> & _)|(b & Hb & _)]; [apply entry_live|]. exfalso. apply Hp.
    unfold dead_nodes. apply elem_of_difference. split; [by eapply elem_of_dom_2|done].
  Qed.
  Lemma pruned_valid : valid g'.
  Proof using All.
    destruct (valid_ends _ Hv) as (He & Hx). split.
    - rewrite !Hblocks, He, Hx. split; by case_decide.
    - intros p m (Hpm & Hp)%pruned_edge. destruct (valid_edges _ Hv _ _ Hpm) as [->|(b & Hb)]; [by left|right]. rewrite Hblocks, Hb.
      rewrite decide_True by (by eapply live_closed). eauto.
    - intros n d Hd. rewrite Hblocks in Hd. destruct (decide (n ∈ l)) as [Hn|]; [|done]. destruct (blocks g !! n) as [b|] eqn:E; [|done]. injection Hd as <-.
      destruct (valid_blocks _ Hv _ _ E) as (H1 & H2 & (ts & H3) & H4). split; [done|]. split; [|split].
      + cbn [succ pruned_block code]. intros Hlen. destruct (H2 Hlen) as (p & Hp). exists p. case_decide; [by apply last_update|done].
      + cbn [code pruned_block]. exists ts. case_decide; [|done]. by rewrite update_phis_split.
      + cbn [code pruned_block]. case_decide as Hsink.
        * rewrite update_phis_split. cbn. intros r ops Hin. apply elem_of_list_fmap in Hin as ((r0 & ops0) & [= -> ->] & Hin). destruct (H4 _ _ Hin) as (Hnd & Hiff).
          cbn [snd]. split.
          { clear -Hnd. induction ops0 as [|[q v] ops IH]; [constructor|]. apply NoDup_cons in Hnd as (Hq & Hnd). destruct (decide (q ∉ dead)) as [Hd|Hd].
            - rewrite filter_cons_True by done. cbn. constructor; [|by apply IH]. intros Hin. apply Hq. apply elem_of_list_fmap in Hin as (x & Hx & Hin).
              apply elem_of_list_filter in Hin as (_ & Hin). apply elem_of_list_fmap. exists x. split; [exact Hx|exact Hin].
            - rewrite filter_cons_False by done. by apply IH. }
          intros p. rewrite pruned_edge, <- Hiff. split.
          -- intros (x & -> & Hy)%elem_of_list_fmap. apply elem_of_list_filter in Hy as (Hx1 & Hx2).
             assert (Hin2 : x.1 ∈ fst <$> ops0) by (apply elem_of_list_fmap; by exists x). split; [done|]. apply Hiff in Hin2. by eapply not_dead_edge.
          -- intros ((x & -> & Hy)%elem_of_list_fmap & Hp). apply elem_of_list_fmap. exists x. split; [done|]. apply elem_of_list_filter. split; [by apply not_dead|done].
        * intros r ops Hin. destruct (H4 _ _ Hin) as (Hnd & Hiff). split; [done|]. intros p. rewrite pruned_edge, Hiff. split; [|tauto]. intros Hpn. split; [done|].
          destruct (decide (p ∈ dead)) as [Hpd|Hpd]; [|by eapply not_dead_edge]. exfalso. apply Hsink. unfold live_sinks.
          apply elem_of_difference. split; [|by apply not_dead]. apply elem_of_intersection. split; [|by eapply elem_of_dom_2].
          apply elem_of_list_to_set. apply elem_of_list_fmap. exists (p, n). split; [done|]. apply elem_of_list_filter. split; [done|]. by apply elem_edges.
  Qed.
  Lemma pruned_closed : closed g'.
  Proof using All.
    destruct (valid_ends _ Hv) as (He & Hx). intros n (d & Hd). rewrite Hblocks in Hd. destruct (decide (n ∈ l)) as [Hn|]; [|done].
    destruct (blocks g !! n) as [b|] eqn:E; [|done]. pose proof Hn as Hr. apply (live_reachable g Hv l Hl) in Hr. unfold reachable in Hr.
    apply rtc_inv_r in Hr as [Heq|(p & Hp & Hpn)]; [congruence|]. exists p. apply pruned_edge. split; [done|]. by apply (live_reachable g Hv l Hl).
  Qed.
  Context {V : Type} (ctl : V -> option nat) (sem : nat -> list V -> option (list V)) (truth : V -> bool).
  Implicit Types σ : nat -> V.
  Lemma pruned_code prev n b σ σ' : prev ∈ l -> exec_code sem truth prev (code (pruned_block n b)) σ σ' <-> exec_code sem truth prev (code b) σ σ'.
  Proof using Type.
    intros Hp. cbn [code pruned_block]. case_decide; [|done]. unfold exec_code. rewrite update_phis_split. cbn [fst snd].
    assert (Hm : forall ps : list (nat * list (nat * nat)), mapM (fun p => operand prev p.2) ((fun p => (p.1, filter (fun q => q.1 ∉ dead) p.2)) <$> ps) = mapM (fun p => operand prev p.2) ps).
    { intros ps. apply mapM_map. intros x. cbn. apply operand_filter. by apply not_dead. }
    rewrite Hm. assert (Hf : forall ps : list (nat * list (nat * nat)), fst <$> ((fun p => (p.1, filter (fun q => q.1 ∉ dead) p.2)) <$> ps) = fst <$> ps).
    { intros ps. rewrite <- list_fmap_compose. done. }
    rewrite Hf. done.
  Qed.
  Lemma pruned_goes n b σ m : blocks g !! n = Some b -> goes ctl (pruned_block n b) σ m <-> goes ctl b σ m.
  Proof using Hv.
    intros Hb. destruct (valid_blocks _ Hv _ _ Hb) as (_ & H2 & _). unfold goes. cbn [succ pruned_block]. destruct (succ b) as [|s [|s' ss]]; [| done |].
    all: destruct (H2 ltac:(done)) as (p & Hp); rewrite Hp; cbn [code pruned_block]; case_decide; [rewrite (last_update _ _ _ Hp)|rewrite Hp]; done.
  Qed.
  Lemma pruned_to prev n σ σ' : runs ctl sem truth g prev n σ σ' -> prev ∈ l -> n ∈ l -> runs ctl sem truth g' prev n σ σ'.
  Proof using All.
    induction 1 as [prev σ|prev n b σ σ1 m σ' Hb Hex Hgo Hr IH]; intros Hp Hn; [constructor|].
    assert (Hb' : blocks g' !! n = Some (pruned_block n b)) by by rewrite Hblocks, decide_True, Hb.
    eapply runs_block; [exact Hb'|by apply pruned_code|by apply pruned_goes|]. apply IH; [done|]. eapply live_closed; [exact Hn|]. right. exists b. split; [done|]. by eapply goes_in.
  Qed.
  Lemma pruned_from prev n σ σ' : runs ctl sem truth g' prev n σ σ' -> prev ∈ l -> runs ctl sem truth g prev n σ σ'.
  Proof using All.
    induction 1 as [prev σ|prev n d σ σ1 m σ' Hd Hex Hgo Hr IH]; intros Hp; [constructor|].
    rewrite Hblocks in Hd. destruct (decide (n ∈ l)) as [Hn|]; [|done]. destruct (blocks g !! n) as [b|] eqn:E; [|done]. injection Hd as <-.
    eapply runs_block; [exact E|by apply (pruned_code prev n)|by apply (pruned_goes n)|by apply IH].
  Qed.
  Lemma pruned_executes σ σ' : executes ctl sem truth g σ σ' <-> executes ctl sem truth g' σ σ'.
  Proof using All.
    unfold executes. rewrite Hst. pose proof entry_live as He. split; intros H.
    - apply pruned_to; [done|done|]. eapply live_closed; [exact He|]. by left.
    - by apply pruned_from.
  Qed.
End Prune.
