(** An order in which tracing goes backwards. *)
From stdpp Require Import base list list_numbers fin_sets gmap.
From Verif.Rvsdg Require Import Model Spec Sem Wf WfFacts Local Args.
From Verif.Trace Require Import Model Spec ProofsOwners.

Fixpoint norder (n : node) : list oid :=
  let 'Node _ _ _ outs subs := n in mjoin (map (fun s => rargs s ++ rorder s) subs) ++ outs
with rorder (r : region) : list oid := let 'Region _ _ ns := r in mjoin (map norder ns).
Definition order (t : region) : list oid := rargs t ++ rorder t.
Lemma perm_mjoin {A B} (f g : A -> list B) l : Forall (fun x => f x ≡ₚ g x) l -> mjoin (map f l) ≡ₚ mjoin (map g l).
Proof. induction 1 as [|x l H _ IH]; [done|]. cbn [map]. change (mjoin (?x :: ?y)) with (x ++ mjoin y). by rewrite H, IH. Qed.
Lemma order_perm_ : (forall n, norder n ≡ₚ (ndefs n).*1) /\ (forall r, rorder r ≡ₚ (rdefs r).*1).
Proof.
  apply tree_ind.
  - intros id k ins outs subs IH. rewrite nkeys_eq. cbn [norder]. rewrite Permutation_app_comm. f_equiv. apply perm_mjoin.
    eapply Forall_impl; [exact IH|]. cbn beta. intros s Hs. by rewrite Hs.
  - intros args res ns IH. rewrite rkeys_eq. cbn [rorder]. by apply perm_mjoin.
Qed.
Lemma order_perm t : order t ≡ₚ (defs t).*1.
Proof.
  unfold order, defs. rewrite fmap_app, (proj2 order_perm_). f_equiv. rewrite <-list_fmap_compose.
  replace ((fst ∘ (fun a : nat => (a, VImport a))) <$> rargs t) with (rargs t); [done|]. symmetry. apply list_fmap_id.
Qed.
Lemma mjoin_app {A} (l k : list (list A)) : mjoin (l ++ k) = mjoin l ++ mjoin k.
Proof. induction l as [|x l IH]; [done|]. change (mjoin ((x :: l) ++ k)) with (x ++ mjoin (l ++ k)). rewrite IH. by rewrite app_assoc. Qed.
Lemma mjoin_split {A B} (f : A -> list B) l x : x ∈ l -> exists l1 l2, mjoin (map f l) = l1 ++ f x ++ l2.
Proof.
  intros H. apply elem_of_list_split in H as (k1 & k2 & ->). exists (mjoin (map f k1)), (mjoin (map f k2)). rewrite map_app, mjoin_app. done.
Qed.
Lemma rorder_unfold r : rorder r = mjoin (map norder (rnodes r)).
Proof. by destruct r. Qed.
Lemma norder_unfold n : norder n = mjoin (map (fun s => rargs s ++ rorder s) (nsubs n)) ++ nouts n.
Proof. by destruct n. Qed.
Lemma own_rorder ns x : x ∈ own ns -> x ∈ mjoin (map norder ns).
Proof. intros (n & Hn & Hx)%elem_of_own. apply elem_of_mjoin_map. exists n. split; [done|]. rewrite norder_unfold. apply elem_of_app. by right. Qed.
Lemma reg_order t r : reg t r -> exists l1 l2, order t = l1 ++ (rargs r ++ rorder r) ++ l2.
Proof.
  induction 1 as [|r n s Hr (l1 & l2 & IH) Hn Hs].
  - exists [], []. cbn. by rewrite app_nil_r.
  - destruct (mjoin_split norder (rnodes r) n Hn) as (k1 & k2 & Hk). destruct (mjoin_split (fun s => rargs s ++ rorder s) (nsubs n) s Hs) as (m1 & m2 & Hm).
    exists (l1 ++ rargs r ++ k1 ++ m1), (m2 ++ nouts n ++ k2 ++ l2). rewrite IH, rorder_unfold, Hk, norder_unfold, Hm. by rewrite <-!app_assoc.
Qed.
Lemma wf_list_before f av ns n x : wf_list f av ns -> n ∈ ns -> x ∈ nins n -> exists ns1 ns2, ns = ns1 ++ n :: ns2 /\ x ∈ av ++ own ns1.
Proof.
  revert av. induction ns as [|m ns IH]; intros av; [by intros _ ?%elem_of_nil|]. cbn [wf_list]. intros (Hi & _ & Hw) Hn Hx. apply elem_of_cons in Hn as [->|Hn].
  - exists [], ns. split; [done|]. rewrite Forall_forall in Hi. apply elem_of_app. auto.
  - destruct (IH _ Hw Hn Hx) as (ns1 & ns2 & -> & Hin). exists (m :: ns1), ns2. split; [done|]. unfold own in *. cbn [map]. change (mjoin (?x :: ?y)) with (x ++ mjoin y). by rewrite app_assoc.
Qed.
Lemma node_order t r n x : wf_region t -> reg t r -> n ∈ rnodes r -> x ∈ nins n -> exists l1 l2, order t = l1 ++ norder n ++ l2 /\ x ∈ l1.
Proof.
  intros Hw Hr Hn Hx. destruct (reg_order t r Hr) as (l1 & l2 & Ho). pose proof (reg_wf t r Hw Hr) as Hwr. destruct r as [args res ns]. destruct Hwr as [Hl _]. cbn [rnodes rargs] in *.
  destruct (wf_list_before _ _ _ _ _ Hl Hn Hx) as (ns1 & ns2 & -> & Hin). exists (l1 ++ args ++ mjoin (map norder ns1)), (mjoin (map norder ns2) ++ l2). split.
  - rewrite Ho. cbn [rorder]. rewrite map_app, mjoin_app. change (mjoin (map norder (n :: ns2))) with (norder n ++ mjoin (map norder ns2)). by rewrite <-!app_assoc.
  - rewrite !elem_of_app. apply elem_of_app in Hin as [?|?]; [auto|]. right. right. by apply own_rorder.
Qed.

Fixpoint pos (l : list oid) (x : oid) : nat := match l with [] => 0 | y :: l => if decide (x = y) then 0 else S (pos l x) end.
Lemma pos_in l1 l2 x : x ∈ l1 -> pos (l1 ++ l2) x < length l1.
Proof. induction l1 as [|y l IH]; [by intros ?%elem_of_nil|]. rewrite elem_of_cons. cbn. destruct (decide (x = y)); [lia|]. intros [->|H]; [done|]. specialize (IH H). lia. Qed.
Lemma pos_notin l1 l2 x : x ∉ l1 -> pos (l1 ++ l2) x = length l1 + pos l2 x.
Proof. induction l1 as [|y l IH]; [done|]. rewrite not_elem_of_cons. intros [H1 H2]. cbn. rewrite decide_False by done. by rewrite IH. Qed.
Lemma pos_lt l1 l2 x y : NoDup (l1 ++ l2) -> x ∈ l1 -> y ∈ l2 -> pos (l1 ++ l2) x < pos (l1 ++ l2) y.
Proof.
  intros Hn Hx Hy. pose proof (pos_in l1 l2 x Hx). rewrite (pos_notin l1 l2 y); [lia|]. apply NoDup_app in Hn as (_ & Hd & _). intros H1. by apply (Hd y).
Qed.
Definition rank (t : region) (o : oid) : nat := pos (order t) o.
Lemma rank_bound t o : o ∈ (defs t).*1 -> rank t o < length (owners t).
Proof.
  intros H. unfold rank. rewrite <-order_perm in H. rewrite <-(app_nil_r (order t)). pose proof (pos_in (order t) [] o H).
  pose proof (Permutation_length (order_perm t)) as Hl. rewrite <-(fmap_length fst (owners t)), owners_keys. lia.
Qed.
Section Rank.
  Context (t : region) (Hw : wf_region t) (Hnd : NoDup (defs t).*1).
  Lemma order_nodup : NoDup (order t).
  Proof using Hnd. clear Hw. by rewrite order_perm. Qed.
  (** the inputs of a node come before its outputs and everything in it *)
  Lemma rank_in r n x y : reg t r -> n ∈ rnodes r -> x ∈ nins n -> y ∈ norder n -> rank t x < rank t y.
  Proof using Hw Hnd.
    intros Hr Hn Hx Hy. destruct (node_order t r n x Hw Hr Hn Hx) as (l1 & l2 & Ho & Hin). pose proof order_nodup as Hd. unfold rank. rewrite Ho in *. apply pos_lt; [done | done |]. apply elem_of_app. by left.
  Qed.
  (** what is in a node comes before its outputs *)
  Lemma rank_sub r n s x y : reg t r -> n ∈ rnodes r -> s ∈ nsubs n -> x ∈ rargs s ++ rorder s -> y ∈ nouts n -> rank t x < rank t y.
  Proof using Hnd.
    clear Hw. intros Hr Hn Hs Hx Hy. destruct (reg_order t r Hr) as (l1 & l2 & Ho). destruct (mjoin_split norder (rnodes r) n Hn) as (k1 & k2 & Hk).
    destruct (mjoin_split (fun s => rargs s ++ rorder s) (nsubs n) s Hs) as (m1 & m2 & Hm). pose proof order_nodup as Hd. unfold rank.
    assert (He : order t = (l1 ++ rargs r ++ k1 ++ m1 ++ (rargs s ++ rorder s) ++ m2) ++ (nouts n ++ k2 ++ l2)). { rewrite Ho, rorder_unfold, Hk, norder_unfold, Hm. by rewrite <-!app_assoc. }
    rewrite He in *. apply pos_lt; [done | |]; rewrite !elem_of_app; [|auto]. rewrite elem_of_app in Hx. tauto.
  Qed.
  Lemma out_norder n y : y ∈ nouts n -> y ∈ norder n.
  Proof using. clear. intros H. rewrite norder_unfold. apply elem_of_app. auto. Qed.
  Lemma sub_norder n s y : s ∈ nsubs n -> y ∈ rargs s ++ rorder s -> y ∈ norder n.
  Proof using. clear. intros Hs H. rewrite norder_unfold. apply elem_of_app. left. apply elem_of_mjoin_map. eauto. Qed.
  Lemma res_rorder r x : reg t r -> x ∈ rres r -> x ∈ rargs r ++ rorder r.
  Proof using Hw.
    clear Hnd. intros Hr Hx. pose proof (wf_region_res _ _ (reg_wf t r Hw Hr) Hx) as H. rewrite rorder_unfold. apply elem_of_app in H as [H|H]; apply elem_of_app; [auto|]. right. by apply own_rorder.
  Qed.
End Rank.
