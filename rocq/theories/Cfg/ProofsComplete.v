(** One pass of straightening leaves no linear pair. *)
From stdpp Require Import tactics relations base list list_numbers fin_sets gmap fin_maps.
From Verif.Construct Require Import Model Spec.
From Verif.Cfg Require Import Model Spec ProofsBase ProofsStraighten.

Lemma in_degree_only g n s b : valid g -> blocks g !! n = Some b -> succ b = [s] -> (forall p, edge g p s -> p = n) -> in_degree g s = 1.
Proof.
  intros Hv Hb Hs Ho. destruct (valid_ends _ Hv) as (He & _). unfold in_degree.
  assert (Hperm : edges g ≡ₚ (n, s) :: (entry, start g) :: (p ← map_to_list (delete n (blocks g)); (fun m => (p.1, m)) <$> succ p.2)).
  { unfold edges. rewrite <- (map_to_list_delete (blocks g) n b Hb). cbn. rewrite Hs. cbn. apply Permutation_swap. }
  rewrite Hperm. rewrite filter_cons_True by reflexivity. cbn [length]. f_equal.
  destruct (filter _ _) as [|[p m] l] eqn:E; [done|]. exfalso.
  assert (Hin : (p, m) ∈ filter (fun e : nat * nat => e.2 = s) ((entry, start g) :: (p ← map_to_list (delete n (blocks g)); (fun m => (p.1, m)) <$> succ p.2))).
  { rewrite E. by left. }
  apply elem_of_list_filter in Hin as (Hm & Hin). cbn in Hm. subst m. apply elem_of_cons in Hin as [[= -> ->]|Hin].
  - assert (entry = n) by (apply Ho; by left). congruence.
  - apply elem_of_list_bind in Hin as ([k c] & Hk & Hc). apply elem_of_list_fmap in Hk as (m & [= -> ->] & Hm). apply elem_of_map_to_list in Hc.
    apply lookup_delete_Some in Hc as (Hne & Hc). assert (k = n); [|done]. apply Ho. right. eauto.
Qed.
Lemma no_phi_iff c : has_phi c = false <-> forall r ops l, code c <> Phi r ops :: l.
Proof. unfold has_phi. destruct (code c) as [|[r ops|x] l]; split; try done. intros H. by destruct (H r ops l). Qed.
Lemma straighten_linear g n : valid g -> (exists s, linear_pair g n s) \/ straighten_at g n = Some g /\ forall s, ~ linear_pair g n s.
Proof.
  intros Hv. unfold straighten_at. destruct (blocks g !! n) as [b|] eqn:Hb; [|right; split; [done|]; intros s (b & c & H & _); congruence].
  destruct (succ b) as [|s [|s' ss]] eqn:Hs; try (right; split; [done|]; intros s0 (b' & c & H & H' & _); congruence).
  destruct (decide (in_degree g s = 1)) as [Hd|Hd].
  - destruct (blocks g !! s) as [c|] eqn:Hc; [|right; split; [done|]; intros s0 (b' & c & H & H' & _ & H'' & _); congruence]. destruct (has_phi c) eqn:Hp.
    + right. split; [done|]. intros s0 (b' & c' & H & H' & _ & H'' & H3). apply no_phi_iff in H3. congruence.
    + left. exists s, b, c. repeat (split; [done|]). split; [|split; [done|by apply no_phi_iff]]. intros p Hpe. eapply in_degree_one; [exact Hd|exact Hpe|].
      right. exists b. rewrite Hs. split; [done|by left].
  - right. split; [done|]. intros s0 (b' & c' & H & H' & H'' & _). assert (b' = b) by congruence. subst b'. assert (s0 = s) by congruence. subst s0.
    apply Hd. by eapply in_degree_only.
Qed.
Lemma linear_merge g n s b c k t : valid g -> blocks g !! n = Some b -> succ b = [s] -> (forall p, edge g p s -> p = n) -> blocks g !! s = Some c -> has_phi c = false ->
  linear_pair (merged g n s b c) k t -> k <> n /\ exists t', linear_pair g k t'.
Proof.
  intros Hv Hb Hs Ho Hc Hp (b1 & c1 & Hb1 & Hs1 & Ho1 & Hc1 & Hp1).
  pose proof (merged_n g n s b c) as Mn. pose proof (merged_other g n s b c) as Mo.
  assert (Hkn : k <> n) by congruence. assert (Htn : t <> n) by congruence. split; [done|].
  pose proof (edge_n g n s b c Hv Hb Hs Ho Hc Hp) as Hen.
  destruct (decide (s = n)) as [Heq|Hne].
  - pose proof (merged_edge_self g n s b c Hv Hb Hs Ho Hc Hp Heq) as Me. rewrite Mo in Hb1 by congruence. rewrite Mo in Hc1 by congruence.
    destruct (blocks g !! k) as [b0|] eqn:E0; [|done]. destruct (blocks g !! t) as [c0|] eqn:E1; [|done]. injection Hb1 as <-. injection Hc1 as <-.
    exists t, b0, c0. split; [done|]. split.
    + cbn in Hs1. destruct (succ b0) as [|x [|]] eqn:Ex; try done. cbn in Hs1. injection Hs1 as Hx. f_equal. unfold redirect in Hx. case_decide; congruence.
    + split; [|done]. intros p Hpe. apply Ho1. apply Me. split; [|done]. intros ->. apply Hen in Hpe. congruence.
  - pose proof (merged_edge g n s b c Hv Hb Hs Ho Hc Hp Hne) as Me. pose proof (merged_s g n s b c Hne) as Ms.
    assert (Hk : exists b0 m0, blocks g !! k = Some b0 /\ succ b0 = [m0] /\ t = redirect n s m0).
    { destruct (decide (k = s)) as [->|Hks].
      - rewrite Ms in Hb1. injection Hb1 as <-. cbn in Hs1. destruct (succ c) as [|x [|]] eqn:Ex; try done. injection Hs1 as <-. eauto.
      - rewrite Mo in Hb1 by done. destruct (blocks g !! k) as [b0|] eqn:E0; [|done]. injection Hb1 as <-. cbn in Hs1.
        destruct (succ b0) as [|x [|]] eqn:Ex; try done. injection Hs1 as <-. eauto. }
    destruct Hk as (b0 & m0 & Hb0 & Hs0 & Ht).
    assert (Hkm : edge g k m0). { right. exists b0. rewrite Hs0. split; [done|by left]. }
    destruct (decide (t = s)) as [->|Hts].
    + assert (m0 = n) as ->. { destruct (decide (m0 = n)) as [|Hm0]; [done|]. rewrite redirect_ne in Ht by done. subst m0. by apply Ho in Hkm. }
      exists n, b0, b. split; [done|]. split; [done|]. split; [|split; [done|]].
      * intros p Hpe. apply Ho1. apply Me. split; [intros ->; by apply Hen in Hpe|]. exists n. by rewrite redirect_eq.
      * rewrite Ms in Hc1. injection Hc1 as <-. cbn in Hp1. intros r ops l Hl. rewrite Hl in Hp1. by eapply Hp1.
    + assert (Hm0 : m0 <> n) by (intros ->; by rewrite redirect_eq in Ht). rewrite redirect_ne in Ht by done. subst m0.
      rewrite Mo in Hc1 by done. destruct (blocks g !! t) as [c0|] eqn:E1; [|done]. injection Hc1 as <-.
      exists t, b0, c0. split; [done|]. split; [done|]. split; [|done]. intros p Hpe. apply Ho1. apply Me. split; [intros ->; by apply Hen in Hpe|]. exists t. by rewrite redirect_ne.
Qed.
Lemma straighten_complete l g g' (dn : list nat) : valid g -> (forall k s, k ∈ dn -> ~ linear_pair g k s) -> straighten l g = Some g' ->
  (forall k, is_Some (blocks g' !! k) -> is_Some (blocks g !! k)) /\ forall k s, k ∈ dn \/ k ∈ l -> ~ linear_pair g' k s.
Proof.
  revert g dn. induction l as [|n l IH]; intros g dn Hv Hd; cbn.
  { intros [= <-]. split; [done|]. intros k s [Hk|Hk]; [by apply Hd|by apply elem_of_nil in Hk]. }
  destruct (straighten_total g n Hv) as (g1 & H1). rewrite H1. cbn. intros H2.
  assert (H : valid g1 /\ (forall k, is_Some (blocks g1 !! k) -> is_Some (blocks g !! k)) /\ forall k s, k ∈ n :: dn -> ~ linear_pair g1 k s).
  { destruct (straighten_linear g n Hv) as [(s & Hl)|(Hsame & Hno)].
    - destruct (straighten_cases _ _ _ Hv H1) as [->|(b & s' & c & Hb & Hs & Ho & Hc & Hp & _ & ->)].
      + (* a linear pair is merged *)
        exfalso. destruct Hl as (b & c & Hb & Hs & Ho & Hc & Hp). apply no_phi_iff in Hp. unfold straighten_at in H1. rewrite Hb, Hs in H1.
        rewrite decide_True in H1 by exact (in_degree_only _ _ _ _ Hv Hb Hs Ho). rewrite Hc, Hp in H1. unfold remove_node in H1. destruct (decide _); [|done]. injection H1 as H1.
        assert (Hn : blocks g !! n = None) by (rewrite <- H1; apply lookup_delete). congruence.
      + split; [by apply merged_valid|]. split.
        * intros k (d & Hk). cbn in Hk. destruct (decide (k = n)) as [->|Hkn]; [eauto|]. rewrite lookup_delete_ne, lookup_fmap in Hk by done.
          destruct (decide (k = s')) as [->|Hks]; [eauto|]. rewrite lookup_insert_ne in Hk by done. destruct (blocks g !! k); eauto.
        * intros k t Hk Hlp. destruct (linear_merge _ _ _ _ _ _ _ Hv Hb Hs Ho Hc Hp Hlp) as (Hkn & t' & Hlp'). apply elem_of_cons in Hk as [->|Hk]; [done|].
          by apply (Hd k t').
    - rewrite Hsame in H1. injection H1 as <-. split; [done|]. split; [done|]. intros k s [->|Hk]%elem_of_cons; [apply Hno|by apply Hd]. }
  destruct H as (Hv1 & Hdom & Hd1). destruct (IH g1 (n :: dn) Hv1 Hd1 H2) as (I1 & I2). split; [auto|]. intros k s Hk. apply I2.
  destruct Hk as [Hk|Hk]; [left; by right|]. apply elem_of_cons in Hk as [->|Hk]; [left; by left|by right].
Qed.
