(** Purging preserves validity and behaviour of graphs without phis, and leaves empty blocks only where they loop. *)
From stdpp Require Import tactics relations base list list_numbers fin_sets gmap fin_maps.
From Verif.Construct Require Import Model Spec.
From Verif.Cfg Require Import Model Spec ProofsBase.

Definition purged (g : cfg) (n s : nat) : cfg :=
  Cfg (delete n ((fun d => Block (code d) (redirect n s <$> succ d)) <$> blocks g)) (redirect n s (start g)).
Lemma divert_no_edge g n s p : s <> n -> ~ edge (divert_inedges n s g) p n.
Proof.
  intros Hne [(-> & H)|(d & Hd & Hin)].
  - cbn in H. by apply (redirect_not n s (start g)).
  - cbn in Hd. rewrite lookup_fmap in Hd. destruct (blocks g !! p) as [d0|]; [|done]. injection Hd as <-. cbn in Hin.
    apply elem_of_list_fmap in Hin as (k & Hk & Hin). by apply (redirect_not n s k).
Qed.
Lemma purge_cases g n : valid g ->
  purge_at g n = Some g /\ (forall b, blocks g !! n = Some b -> code b = [] -> succ b = [n]) \/
  exists b s, blocks g !! n = Some b /\ code b = [] /\ succ b = [s] /\ s <> n /\ purge_at g n = Some (purged g n s).
Proof.
  intros Hv. unfold purge_at. destruct (blocks g !! n) as [b|] eqn:Hb; [|left; by split].
  destruct (code b) as [|i l] eqn:Hc; [|left; split; [done|]; intros b' [= <-]; by rewrite Hc].
  destruct (valid_blocks _ Hv _ _ Hb) as (H1 & H2 & _). rewrite Hc in H2.
  destruct (succ b) as [|s [|s' ss]] eqn:Hs; [done| |destruct H2 as (? & ?); done].
  destruct (decide (s = n)) as [->|Hne].
  - left. split; [done|]. intros b' [= <-]. by rewrite Hs.
  - right. exists b, s. repeat (split; [done|]). rewrite remove_node_some; [done|]. intros p Hp. by apply divert_no_edge in Hp.
Qed.

Section Purge.
  Context (g : cfg) (n s : nat) (b : block).
  Context (Hv : valid g) (Hnp : no_phis g) (Hb : blocks g !! n = Some b) (Hcb : code b = []) (Hs : succ b = [s]) (Hne : s <> n).
  Let g' := purged g n s.
  Lemma purged_other k : k <> n -> blocks g' !! k = (fun d => Block (code d) (redirect n s <$> succ d)) <$> blocks g !! k.
  Proof using Type. intros H1. cbn. by rewrite lookup_delete_ne, lookup_fmap by done. Qed.
  Lemma purged_n : blocks g' !! n = None.
  Proof using Type. cbn. apply lookup_delete. Qed.
  Lemma purged_no_phis : no_phis g'.
  Proof using Hnp.
    intros k d Hd. destruct (decide (k = n)) as [->|Hk]; [by rewrite purged_n in Hd|]. rewrite purged_other in Hd by done.
    destruct (blocks g !! k) as [d0|] eqn:E; [|done]. injection Hd as <-. exact (Hnp k d0 E).
  Qed.
  Lemma no_phis_valid l : Forall (fun i => exists x, i = Tac x) l -> exists ts, plain l = Some ts.
  Proof using Type.
    induction 1 as [|i l (x & ->) _ (ts & IH)]; [by exists []|]. rewrite plain_cons, IH. eauto.
  Qed.
  Lemma no_phis_split l : Forall (fun i => exists x, i = Tac x) l -> split_phis l = ([], l).
  Proof using Type. destruct 1 as [|i l (x & ->) _]; done. Qed.
  Lemma purged_valid : valid g'.
  Proof using All.
    destruct (valid_ends _ Hv) as (He & Hx). split.
    - split; rewrite purged_other by congruence; [by rewrite He|by rewrite Hx].
    - assert (Hr : forall m, m = exit \/ is_Some (blocks g !! m) -> redirect n s m = exit \/ is_Some (blocks g' !! redirect n s m)).
      { intros m Hm. destruct (decide (m = n)) as [->|Hmn].
        - rewrite redirect_eq. assert (Hns : edge g n s). { right. exists b. rewrite Hs. split; [done|by left]. }
          destruct (valid_edges _ Hv _ _ Hns) as [->|(d & Hd)]; [by left|right]. rewrite purged_other, Hd by done. eauto.
        - rewrite redirect_ne by done. destruct Hm as [->|(d & Hd)]; [by left|right]. rewrite purged_other, Hd by done. eauto. }
      intros p m [(-> & ->)|(d & Hd & Hin)].
      + cbn [start g' purged]. apply Hr. apply (valid_edges _ Hv entry). by left.
      + destruct (decide (p = n)) as [->|Hk]; [by rewrite purged_n in Hd|]. rewrite purged_other in Hd by done.
        destruct (blocks g !! p) as [d0|] eqn:E; [|done]. injection Hd as <-. cbn in Hin. apply elem_of_list_fmap in Hin as (m0 & -> & Hin).
        apply Hr. apply (valid_edges _ Hv p). right. eauto.
    - intros k d Hd. pose proof (purged_no_phis k d Hd) as Hf.
      destruct (decide (k = n)) as [->|Hk]; [by rewrite purged_n in Hd|]. rewrite purged_other in Hd by done.
      destruct (blocks g !! k) as [d0|] eqn:E; [|done]. injection Hd as <-. destruct (valid_blocks _ Hv _ _ E) as (H1 & H2 & _).
      cbn [succ code] in *. split; [by destruct (succ d0)|]. split; [by rewrite fmap_length|]. unfold valid_phis. cbn [code]. rewrite (no_phis_split _ Hf). cbn.
      split; [by apply no_phis_valid|]. intros r ops Hin. by apply elem_of_nil in Hin.
  Qed.
  Context {V : Type} (ctl : V -> option nat) (sem : nat -> list V -> option (list V)) (truth : V -> bool).
  Implicit Types σ : nat -> V.
  Lemma no_phis_prev k d p q σ σ' : blocks g !! k = Some d -> exec_code sem truth p (code d) σ σ' -> exec_code sem truth q (code d) σ σ'.
  Proof using Hnp.
    intros Hd. apply exec_code_prev. pose proof (Hnp _ _ Hd) as Hf. destruct Hf as [|i l (x & ->) _]; done.
  Qed.
  Lemma purged_to prev k σ σ' : runs ctl sem truth g prev k σ σ' -> forall prev', runs ctl sem truth g' prev' (redirect n s k) σ σ'.
  Proof using All.
    destruct (valid_ends _ Hv) as (He & Hx). induction 1 as [prev σ|prev k d σ σ1 m σ' Hd Hex Hgo Hr IH]; intros prev'.
    - rewrite redirect_ne by congruence. constructor.
    - destruct (decide (k = n)) as [->|Hk].
      + assert (d = b) by congruence. subst d. rewrite Hcb in Hex. apply exec_code_nil in Hex. subst σ1. unfold goes in Hgo. rewrite Hs in Hgo. subst m.
        rewrite redirect_eq. rewrite redirect_ne in IH by done. apply IH.
      + rewrite redirect_ne by done.
        assert (Hd' : blocks g' !! k = Some (Block (code d) (redirect n s <$> succ d))) by (rewrite purged_other by done; by rewrite Hd).
        eapply runs_block; [exact Hd'| | |apply IH]. { cbn. by eapply no_phis_prev. } eapply goes_map; [| |exact Hgo]; done.
  Qed.
  Lemma purged_from prev k σ σ' : runs ctl sem truth g' prev k σ σ' -> forall prev', runs ctl sem truth g prev' k σ σ'.
  Proof using All.
    induction 1 as [prev σ|prev k d σ σ1 m σ' Hd Hex Hgo Hr IH]; intros prev'; [constructor|].
    destruct (decide (k = n)) as [->|Hk]; [by rewrite purged_n in Hd|]. rewrite purged_other in Hd by done.
    destruct (blocks g !! k) as [d0|] eqn:E; [|done]. injection Hd as <-. cbn [code] in Hex.
    assert (Hgo' : exists m0, goes ctl d0 σ1 m0 /\ m = redirect n s m0). { eapply goes_unmap; [| |exact Hgo]; done. }
    destruct Hgo' as (m0 & Hgo0 & ->).
    eapply runs_block; [exact E|by eapply no_phis_prev|exact Hgo0|].
    destruct (decide (m0 = n)) as [->|Hm]; [|rewrite redirect_ne in IH by done; apply IH].
    rewrite redirect_eq in IH. eapply runs_block; [exact Hb|rewrite Hcb; by apply exec_code_nil| |apply IH]. unfold goes. by rewrite Hs.
  Qed.
  Lemma purged_executes σ σ' : executes ctl sem truth g σ σ' <-> executes ctl sem truth g' σ σ'.
  Proof using All.
    unfold executes. cbn [start g' purged]. split.
    - intros H. by eapply purged_to.
    - intros H. pose proof (purged_from _ _ _ _ H) as Hf. destruct (decide (start g = n)) as [Heq|Hm]; [|rewrite redirect_ne in Hf by done; apply Hf].
      rewrite Heq, redirect_eq in Hf. rewrite Heq. eapply runs_block; [exact Hb|rewrite Hcb; by apply exec_code_nil| |apply Hf]. unfold goes. by rewrite Hs.
  Qed.
End Purge.

Lemma purge_ok l g : valid g -> no_phis g -> exists g', purge l g = Some g' /\ valid g' /\ no_phis g' /\
  (forall (V : Type) (ctl : V -> option nat) sem truth σ σ', executes ctl sem truth g σ σ' <-> executes ctl sem truth g' σ σ') /\
  (forall n b', blocks g' !! n = Some b' -> exists b, blocks g !! n = Some b /\ code b' = code b /\ (succ b = [n] -> succ b' = [n])) /\
  (forall n b', blocks g' !! n = Some b' -> n ∈ l -> code b' = [] -> succ b' = [n]).
Proof.
  revert g. induction l as [|n l IH]; intros g Hv Hnp.
  { exists g. repeat (split; [done|]). split; [eauto|]. intros n b' _ Hn. by apply elem_of_nil in Hn. }
  cbn. destruct (purge_cases g n Hv) as [(-> & Hself)|(b & s & Hb & Hcb & Hs & Hne & ->)]; cbn.
  - destruct (IH g Hv Hnp) as (g' & H1 & H2 & H3 & H4 & H5 & H6). exists g'. repeat (split; [done|]). intros k d Hd [->|Hin]%elem_of_cons Hcd; [|eauto].
    destruct (H5 _ _ Hd) as (d0 & Hd0 & Hc & Hsd). apply Hsd. apply Hself; [done|]. congruence.
  - assert (Hv1 : valid (purged g n s)) by by eapply purged_valid.
    assert (Hn1 : no_phis (purged g n s)) by by eapply purged_no_phis.
    destruct (IH _ Hv1 Hn1) as (g' & H1 & H2 & H3 & H4 & H5 & H6). exists g'. repeat (split; [done|]). split; [|split].
    + intros. rewrite <- H4. by eapply purged_executes.
    + intros k d Hd. destruct (H5 _ _ Hd) as (d0 & Hd0 & Hc & Hsd).
      destruct (decide (k = n)) as [->|Hk]; [by rewrite purged_n in Hd0|]. rewrite purged_other in Hd0 by done.
      destruct (blocks g !! k) as [d1|] eqn:E; [|done]. injection Hd0 as <-. exists d1. split; [done|]. split; [done|]. cbn in Hsd.
      intros Hs1. apply Hsd. rewrite Hs1. cbn. by rewrite redirect_ne.
    + intros k d Hd [->|Hin]%elem_of_cons Hcd; [|eauto]. destruct (H5 _ _ Hd) as (d0 & Hd0 & _). by rewrite purged_n in Hd0.
Qed.
