(** Straightening preserves validity and behaviour. *)
From stdpp Require Import tactics relations base list list_numbers fin_sets gmap fin_maps.
From Verif.Construct Require Import Model Spec.
From Verif.Cfg Require Import Model Spec ProofsBase.

Lemma edge_single g n s b m : valid g -> blocks g !! n = Some b -> succ b = [s] -> edge g n m -> m = s.
Proof.
  intros Hv Hb Hs [(-> & _)|(b' & Hb' & Hm)]; [destruct (valid_ends _ Hv); congruence|].
  rewrite Hb in Hb'. injection Hb' as <-. rewrite Hs in Hm. by apply elem_of_list_singleton in Hm.
Qed.
(** what a merge leaves *)
Definition merged (g : cfg) (n s : nat) (b c : block) : cfg :=
  Cfg (delete n ((fun d => Block (code d) (redirect n s <$> succ d)) <$> <[s := append_first (code b) c]> (blocks g))) (redirect n s (start g)).
Lemma straighten_cases g n g' : valid g -> straighten_at g n = Some g' ->
  g' = g \/ exists b s c, blocks g !! n = Some b /\ succ b = [s] /\ (forall p, edge g p s -> p = n) /\ blocks g !! s = Some c /\ has_phi c = false /\
    (s = n \/ s <> n) /\ g' = merged g n s b c.
Proof.
  intros Hv. unfold straighten_at. destruct (blocks g !! n) as [b|] eqn:Hb; [|intros [= <-]; by left].
  destruct (succ b) as [|s [|]] eqn:Hs; try (intros [= <-]; by left).
  destruct (decide (in_degree g s = 1)) as [Hd|]; [|intros [= <-]; by left].
  destruct (blocks g !! s) as [c|] eqn:Hc; [|intros [= <-]; by left]. destruct (has_phi c) eqn:Hp; [intros [= <-]; by left|].
  assert (Hns : edge g n s). { right. exists b. rewrite Hs. split; [done|by left]. }
  assert (Hone : forall p, edge g p s -> p = n) by (intros p H; by eapply in_degree_one).
  intros H. right. exists b, s, c. repeat (split; [done|]). split; [destruct (decide (s = n)); auto|].
  unfold merged. unfold remove_node in H. destruct (decide _); [|done]. by injection H as <-.
Qed.
Lemma straighten_total g n : valid g -> is_Some (straighten_at g n).
Proof.
  intros Hv. unfold straighten_at. destruct (blocks g !! n) as [b|] eqn:Hb; [|eauto].
  destruct (succ b) as [|s [|]] eqn:Hs; eauto. destruct (decide (in_degree g s = 1)) as [Hd|]; eauto.
  destruct (blocks g !! s) as [c|] eqn:Hc; [|eauto]. destruct (has_phi c) eqn:Hp; eauto.
  assert (Hns : edge g n s). { right. exists b. rewrite Hs. split; [done|by left]. }
  eexists. apply remove_node_some. intros p.
  destruct (decide (s = n)) as [->|Hne].
  - intros [(-> & H)|(d & Hd' & Hin)].
    + exfalso. cbn in H. assert (start g = n). { unfold redirect in H. by case_decide. }
      destruct (in_degree_one g n entry n); [done|by left|done|]. destruct (valid_ends _ Hv). congruence.
    + cbn in Hd'. rewrite lookup_fmap in Hd'. destruct (decide (p = n)) as [|Hpn]; [done|]. rewrite lookup_insert_ne in Hd' by done.
      destruct (blocks g !! p) as [d0|] eqn:E; [|done]. injection Hd' as <-. cbn in Hin.
      apply elem_of_list_fmap in Hin as (k & Hk & Hin). assert (k = n). { unfold redirect in Hk. by case_decide. } subst k.
      symmetry. apply (in_degree_one g n); [done|done|]. right. eauto.
  - intros [(-> & H)|(d & Hd' & Hin)]; exfalso.
    + cbn in H. by apply (redirect_not n s (start g)).
    + cbn in Hd'. rewrite lookup_fmap in Hd'. destruct (<[s:=_]> (blocks g) !! p) as [d0|]; [|done]. injection Hd' as <-. cbn in Hin.
      apply elem_of_list_fmap in Hin as (k & Hk & Hin). by apply (redirect_not n s k).
Qed.

Section Merge.
  Context (g : cfg) (n s : nat) (b c : block).
  Context (Hv : valid g) (Hb : blocks g !! n = Some b) (Hs : succ b = [s]) (Hone : forall p, edge g p s -> p = n) (Hc : blocks g !! s = Some c).
  Context (Hp : has_phi c = false).
  Let g' := merged g n s b c.
  Lemma edge_n m : edge g n m -> m = s.
  Proof using All. clear Hone Hc Hp g'. eapply edge_single; eauto. Qed.
  Lemma start_ne : start g <> s.
  Proof using All.
    intros H. destruct (valid_ends _ Hv) as (He & _). assert (entry = n) by (apply Hone; by left). congruence.
  Qed.

  Lemma merged_other k : k <> n -> k <> s -> blocks g' !! k = (fun d => Block (code d) (redirect n s <$> succ d)) <$> blocks g !! k.
  Proof using Type. intros H1 H2. cbn. rewrite lookup_delete_ne, lookup_fmap, lookup_insert_ne by done. done. Qed.
  Lemma merged_n : blocks g' !! n = None.
  Proof using Type. cbn. apply lookup_delete. Qed.
  Lemma merged_s : s <> n -> blocks g' !! s = Some (Block (code b ++ code c) (redirect n s <$> succ c)).
  Proof using Type. intros H. cbn. by rewrite lookup_delete_ne, lookup_fmap, lookup_insert by done. Qed.
  Lemma merged_edge : s <> n -> forall p m, edge g' p m <-> p <> n /\ exists m0, edge g p m0 /\ m = redirect n s m0.
  Proof using All.
    intros Hne p m. destruct (valid_ends _ Hv) as (He & _). split.
    - intros [(-> & H)|(d & Hd & Hin)].
      + cbn in H. split; [congruence|]. exists (start g). split; [by left|done].
      + destruct (decide (p = n)) as [->|Hpn]; [by rewrite merged_n in Hd|]. split; [done|].
        destruct (decide (p = s)) as [->|Hps].
        * rewrite merged_s in Hd by done. injection Hd as <-. cbn in Hin. apply elem_of_list_fmap in Hin as (k & -> & Hin). exists k. split; [right; eauto|done].
        * rewrite merged_other in Hd by done. destruct (blocks g !! p) as [d0|] eqn:E; [|done]. injection Hd as <-. cbn in Hin.
          apply elem_of_list_fmap in Hin as (k & -> & Hin). exists k. split; [right; eauto|done].
    - intros (Hpn & m0 & [(-> & ->)|(d & Hd & Hin)] & ->); [by left|]. right.
      destruct (decide (p = s)) as [->|Hps].
      + rewrite Hc in Hd. injection Hd as <-. eexists. split; [by apply merged_s|]. cbn. apply elem_of_list_fmap. eauto.
      + eexists. split; [rewrite merged_other by done; by rewrite Hd|]. cbn. apply elem_of_list_fmap. eauto.
  Qed.
  Lemma merged_edge_self : s = n -> forall p m, edge g' p m <-> p <> n /\ edge g p m.
  Proof using All.
    intros Heq p m. destruct (valid_ends _ Hv) as (He & _). pose proof start_ne as Hst.
    assert (Hid : forall l : list nat, redirect n s <$> l = l).
    { intros l. rewrite <- (list_fmap_id l) at 2. apply list_fmap_ext. intros i x Hx. unfold redirect. case_decide; [|done]. cbn. congruence. }
    split.
    - intros [(-> & H)|(d & Hd & Hin)].
      + cbn in H. split; [congruence|]. left. split; [done|]. rewrite H, redirect_ne; [done|congruence].
      + destruct (decide (p = n)) as [->|Hpn]; [by rewrite merged_n in Hd|]. split; [done|].
        rewrite merged_other in Hd by congruence. destruct (blocks g !! p) as [d0|] eqn:E; [|done]. injection Hd as <-. cbn in Hin. rewrite Hid in Hin. right; eauto.
    - intros (Hpn & [(-> & ->)|(d & Hd & Hin)]); [left; split; [done|]; cbn; rewrite redirect_ne; [done|congruence]|]. right.
      eexists. split; [rewrite merged_other by congruence; by rewrite Hd|]. cbn. by rewrite Hid.
  Qed.
  Lemma merged_valid : valid g'.
  Proof using All.
    destruct (valid_ends _ Hv) as (He & Hx). pose proof edge_n as Hen.
    destruct (decide (s = n)) as [Heq|Hne].
    - pose proof (merged_edge_self Heq) as Hedge.
      assert (Hdom : forall k, k <> n -> is_Some (blocks g !! k) -> is_Some (blocks g' !! k)).
      { intros k Hk (d & Hd). rewrite merged_other by congruence. rewrite Hd. eauto. }
      assert (Hnone : forall k, blocks g !! k = None -> blocks g' !! k = None).
      { intros k Hk. rewrite merged_other by congruence. by rewrite Hk. }
      split.
      + split; by apply Hnone.
      + intros p m Hpm. apply Hedge in Hpm as (Hpn & Hpm). destruct (valid_edges _ Hv _ _ Hpm) as [->|HS]; [by left|right]. apply Hdom; [|done].
        intros ->. apply Hpn. apply Hone. by rewrite Heq.
      + intros k d Hd. destruct (decide (k = n)) as [->|Hk]; [by rewrite merged_n in Hd|]. rewrite merged_other in Hd by congruence.
        destruct (blocks g !! k) as [d0|] eqn:E; [|done]. injection Hd as <-. destruct (valid_blocks _ Hv _ _ E) as (H1 & H2 & H3 & H4). split.
        { cbn. by destruct (succ d0). }
        split; [cbn [succ]; rewrite fmap_length; done|]. split; [done|]. cbn [code]. intros r ops Hin. destruct (H4 r ops Hin) as (Hnd & Hiff).
        split; [done|]. intros p. rewrite Hiff, Hedge. split; [|tauto]. intros Hpk. split; [|done]. intros ->. apply Hen in Hpk. congruence.
    - pose proof (merged_edge Hne) as Hedge.
      assert (Hdom : forall k, k <> n -> is_Some (blocks g !! k) -> is_Some (blocks g' !! k)).
      { intros k Hk (d & Hd). destruct (decide (k = s)) as [->|]; [rewrite merged_s by done; eauto|]. rewrite merged_other by congruence. rewrite Hd. eauto. }
      assert (Hnone : forall k, blocks g !! k = None -> blocks g' !! k = None).
      { intros k Hk. rewrite merged_other by congruence. by rewrite Hk. }
      (* the predecessors *)
      assert (Hpre : forall p k, k <> n -> k <> s -> edge g' p k <-> edge g p k).
      { intros p k Hk Hks. rewrite Hedge. split.
        - intros (Hpn & m0 & Hm & ->). destruct (decide (m0 = n)) as [->|Hm0]; [by rewrite redirect_eq in Hks|]. by rewrite redirect_ne.
        - intros Hpk. split; [intros ->; apply Hen in Hpk; congruence|]. exists k. by rewrite redirect_ne. }
      assert (Hpres : forall p, edge g' p s <-> edge g p n).
      { intros p. rewrite Hedge. split.
        - intros (Hpn & m0 & Hm & Hms). destruct (decide (m0 = n)) as [->|Hm0]; [done|]. rewrite redirect_ne in Hms by done. subst m0. by apply Hone in Hm.
        - intros Hpk. split; [intros ->; apply Hen in Hpk; congruence|]. exists n. by rewrite redirect_eq. }
      split.
      + split; by apply Hnone.
      + intros p m Hpm. apply Hedge in Hpm as (Hpn & m0 & Hpm & ->). destruct (decide (m0 = n)) as [->|Hm0].
        { rewrite redirect_eq. right. apply Hdom; [done|]. eauto. }
        rewrite redirect_ne by done. destruct (valid_edges _ Hv _ _ Hpm) as [->|HS]; [by left|right]. by apply Hdom.
      + intros k d Hd. destruct (decide (k = n)) as [->|Hk]; [by rewrite merged_n in Hd|].
        destruct (decide (k = s)) as [->|Hks].
        * rewrite merged_s in Hd by done. injection Hd as <-. destruct (valid_blocks _ Hv _ _ Hc) as (H1 & H2 & (ts2 & H3) & H4).
          destruct (valid_blocks _ Hv _ _ Hb) as (_ & _ & (ts1 & H7) & H8). pose proof (no_phi_head _ Hp) as Hh.
          rewrite (split_phis_none (code c) Hh) in H3, H4.
          split; [cbn; by destruct (succ c)|]. split.
          { cbn [succ code]. rewrite fmap_length. intros Hl. destruct (H2 Hl) as (p & Hlast). exists p. rewrite last_app, Hlast. done. }
          split; cbn [code]; rewrite (split_phis_app _ _ Hh); cbn [fst snd].
          { exists (ts1 ++ ts2). rewrite plain_app, H7. cbn in H3. rewrite H3. done. }
          intros r ops Hin. destruct (H8 r ops Hin) as (Hnd & Hiff). split; [done|]. intros p. by rewrite Hiff, Hpres.
        * rewrite merged_other in Hd by congruence.
          destruct (blocks g !! k) as [d0|] eqn:E; [|done]. injection Hd as <-. destruct (valid_blocks _ Hv _ _ E) as (H1 & H2 & H3 & H4).
          split; [cbn; by destruct (succ d0)|].
          split; [cbn [succ]; rewrite fmap_length; done|]. split; [done|]. cbn [code]. intros r ops Hin. destruct (H4 r ops Hin) as (Hnd & Hiff).
          split; [done|]. intros p. by rewrite Hiff, Hpre.
  Qed.

  Context {V : Type} (ctl : V -> option nat) (sem : nat -> list V -> option (list V)) (truth : V -> bool).
  Implicit Types σ : nat -> V.
  Lemma last_merged : length (succ c) <> 1 -> list.last (code b ++ code c) = list.last (code c).
  Proof using All. intros Hl. destruct (valid_blocks _ Hv _ _ Hc) as (_ & H2 & _). destruct (H2 Hl) as (p & Hlast). by rewrite last_app, Hlast. Qed.
  Lemma merged_runs_to : s <> n -> forall prev k σ σ', runs ctl sem truth g prev k σ σ' ->
    (k <> s -> runs ctl sem truth g' prev (redirect n s k) σ σ') /\
    (k = s -> forall prev0 σ0, exec_code sem truth prev0 (code b) σ0 σ -> runs ctl sem truth g' prev0 s σ0 σ').
  Proof using All.
    intros Hne prev k σ σ' H. destruct (valid_ends _ Hv) as (He & Hx). pose proof (no_phi_head _ Hp) as Hh.
    induction H as [prev σ|prev k d σ σ1 m σ' Hd Hex Hgo Hr IH].
    - split; [|congruence]. intros _. rewrite redirect_ne by congruence. constructor.
    - destruct IH as (IH1 & IH2).
      assert (Hkm : edge g k m). { right. exists d. split; [done|]. by eapply goes_in. }
      split.
      + intros Hks. destruct (decide (k = n)) as [->|Hkn].
        * assert (d = b) by congruence. subst d. rewrite redirect_eq. assert (m = s) by by apply edge_n. subst m. by apply IH2.
        * rewrite redirect_ne by done. assert (m <> s) by (intros ->; by apply Hkn, Hone). 
          assert (Hd' : blocks g' !! k = Some (Block (code d) (redirect n s <$> succ d))) by (rewrite merged_other by done; by rewrite Hd).
          eapply runs_block; [exact Hd'|exact Hex| |by apply IH1].
          eapply goes_map; [| |exact Hgo]; done.
      + intros -> prev0 σ0 Hex0. assert (d = c) by congruence. subst d.
        assert (m <> s) by (intros ->; by apply Hne, Hone).
        eapply runs_block; [by apply merged_s| | |by apply IH1].
        * cbn [code]. apply (exec_code_app _ _ _ prev); [done|]. eauto.
        * eapply goes_map; [| |exact Hgo]; [done|]. cbn [code]. apply last_merged.
  Qed.
  Lemma merged_runs_from : s <> n -> forall prev k' σ σ', runs ctl sem truth g' prev k' σ σ' -> forall k, k <> s -> k' = redirect n s k -> runs ctl sem truth g prev k σ σ'.
  Proof using All.
    intros Hne prev k' σ σ' H. destruct (valid_ends _ Hv) as (He & Hx). pose proof (no_phi_head _ Hp) as Hh.
    induction H as [prev σ|prev k' d σ σ1 m σ' Hd Hex Hgo Hr IH]; intros k Hks Hk'.
    - assert (k = exit) as ->. { unfold redirect in Hk'. case_decide; congruence. } constructor.
    - destruct (decide (k = n)) as [->|Hkn].
      + rewrite redirect_eq in Hk'. subst k'. rewrite merged_s in Hd by done. injection Hd as <-. cbn [code] in Hex.
        apply (exec_code_app _ _ _ n) in Hex as (σ0 & Hex1 & Hex2); [|done].
        assert (Hgo' : exists m0, goes ctl c σ1 m0 /\ m = redirect n s m0). { eapply goes_unmap; [| |exact Hgo]; [done|]. apply last_merged. }
        destruct Hgo' as (m0 & Hgo0 & ->).
        assert (Hm0 : m0 <> s). { intros ->. apply Hne, Hone. right. exists c. split; [done|]. by eapply goes_in. }
        eapply runs_block; [exact Hb|exact Hex1| |]. { unfold goes. rewrite Hs. reflexivity. }
        eapply runs_block; [exact Hc|exact Hex2|exact Hgo0|]. by apply IH.
      + rewrite redirect_ne in Hk' by done. subst k'. rewrite merged_other in Hd by done.
        destruct (blocks g !! k) as [d0|] eqn:E; [|done]. injection Hd as <-. cbn [code] in Hex.
        assert (Hgo' : exists m0, goes ctl d0 σ1 m0 /\ m = redirect n s m0). { eapply goes_unmap; [| |exact Hgo]; done. }
        destruct Hgo' as (m0 & Hgo0 & ->).
        assert (Hm0 : m0 <> s). { intros ->. apply Hkn, Hone. right. exists d0. split; [done|]. by eapply goes_in. }
        eapply runs_block; [exact E|exact Hex|exact Hgo0|]. by apply IH.
  Qed.
  Lemma merged_self_to : s = n -> forall prev k σ σ', runs ctl sem truth g prev k σ σ' -> k <> n -> runs ctl sem truth g' prev k σ σ'.
  Proof using All.
    intros Heq prev k σ σ' H. induction H as [prev σ|prev k d σ σ1 m σ' Hd Hex Hgo Hr IH]; intros Hk; [constructor|].
    assert (Hkm : edge g k m). { right. exists d. split; [done|]. by eapply goes_in. }
    assert (m <> n). { intros ->. apply Hk, Hone. by rewrite Heq. }
    assert (Hd' : blocks g' !! k = Some (Block (code d) (redirect n s <$> succ d))) by (rewrite merged_other by congruence; by rewrite Hd).
    eapply runs_block; [exact Hd'|exact Hex| |by apply IH].
    replace m with (redirect n s m) by by rewrite redirect_ne. eapply goes_map; [| |exact Hgo]; done.
  Qed.
  Lemma merged_self_from : s = n -> forall prev k σ σ', runs ctl sem truth g' prev k σ σ' -> runs ctl sem truth g prev k σ σ'.
  Proof using All.
    intros Heq prev k σ σ' H. induction H as [prev σ|prev k d σ σ1 m σ' Hd Hex Hgo Hr IH]; [constructor|].
    destruct (decide (k = n)) as [->|Hk]; [by rewrite merged_n in Hd|]. rewrite merged_other in Hd by congruence.
    destruct (blocks g !! k) as [d0|] eqn:E; [|done]. injection Hd as <-. cbn [code] in Hex.
    assert (Hgo' : exists m0, goes ctl d0 σ1 m0 /\ m = redirect n s m0). { eapply goes_unmap; [| |exact Hgo]; done. }
    destruct Hgo' as (m0 & Hgo0 & ->).
    assert (Hm0 : redirect n s m0 = m0). { unfold redirect. case_decide; congruence. } rewrite Hm0 in IH.
    by eapply runs_block.
  Qed.
  Lemma merged_executes σ σ' : executes ctl sem truth g σ σ' <-> executes ctl sem truth g' σ σ'.
  Proof using All.
    pose proof start_ne as Hst. unfold executes. destruct (decide (s = n)) as [Heq|Hne].
    - cbn [start g' merged]. rewrite redirect_ne by congruence. split.
      + intros H. eapply merged_self_to; [done|exact H|congruence].
      + by apply merged_self_from.
    - cbn [start g' merged]. split.
      + intros H. by apply (merged_runs_to Hne _ _ _ _ H).
      + intros H. by apply (merged_runs_from Hne _ _ _ _ H).
  Qed.
End Merge.

Lemma straighten_ok l g : valid g -> exists g', straighten l g = Some g' /\ valid g' /\
  forall (V : Type) (ctl : V -> option nat) sem truth σ σ', executes ctl sem truth g σ σ' <-> executes ctl sem truth g' σ σ'.
Proof.
  revert g. induction l as [|n l IH]; intros g Hv; [by exists g|]. cbn. destruct (straighten_total g n Hv) as (g1 & H1). rewrite H1. cbn.
  assert (H : valid g1 /\ forall (V : Type) (ctl : V -> option nat) sem truth σ σ', executes ctl sem truth g σ σ' <-> executes ctl sem truth g1 σ σ').
  { destruct (straighten_cases _ _ _ Hv H1) as [->|(b & s & c & Hb & Hs & Ho & Hc & Hp & _ & ->)]; [done|].
    split; [by apply merged_valid|]. intros. by apply merged_executes. }
  destruct H as (Hv1 & He). destruct (IH g1 Hv1) as (g' & H2 & Hv' & He'). exists g'. split; [done|]. split; [done|].
  intros. by rewrite He, He'.
Qed.
