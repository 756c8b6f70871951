(** Whole traversals. *)
From stdpp Require Import base list gmap.
From Verif.Region Require Import Model Spec Proofs Proofs9 Properties.
From Verif.Traverser Require Import Model Spec Proofs Proofs2 Proofs3 Proofs4 Proofs5 Proofs6 Proofs7 Proofs8 Proofs9 Proofs10.

Lemma built_Inv r : built r -> Inv r.
Proof. intros [t H]. exact (reachable_Inv _ _ H). Qed.

Record RI (K : region -> tracker -> Prop) (cut : nat) (s : region * tracker) (ids : list nat) : Prop := {
  ri_inv : Inv s.1;
  ri_t : K s.1 s.2;
  ri_cut : cut <= next_id s.1;
  ri_old : forall id, id ∈ ids -> id < cut;
  ri_nodup : NoDup ids;
  ri_behind : forall n nd, nodes s.1 !! n = Some nd -> nd_id nd < cut -> (st s.2 n = Behind <-> nd_id nd ∈ ids) }.
Lemma RI_keeps K cut s s' ids : RI K cut s ids -> Inv s'.1 -> K s'.1 s'.2 -> keeps s.1 s.2 s'.1 s'.2 -> RI K cut s' ids.
Proof.
  intros [H1 H2 H3 H4 H5 H6] HI HT [K1 K2]. constructor; try assumption; [lia|]. intros n nd Hn Hid. destruct (K2 n nd Hn ltac:(lia)) as (nd0 & Hn0 & E & S).
  rewrite S, <- E. apply H6; [assumption|lia].
Qed.
Lemma RI_throws K cut s s' ids : RI K cut s ids -> Inv s'.1 -> K s'.1 s'.2 -> next_id s.1 <= next_id s'.1 -> (forall n, nd_id <$> nodes s'.1 !! n = nd_id <$> nodes s.1 !! n) -> s'.2 = s.2 -> RI K cut s' ids.
Proof.
  intros HR HI HT Hi Hn Ht. apply (RI_keeps K cut s); [assumption..|]. rewrite Ht. split; [lia|]. intros n nd' H _. specialize (Hn n). rewrite H in Hn.
  destruct (nodes s.1 !! n) as [nd|]; [|discriminate]. exists nd. simpl in Hn. split; [reflexivity|]. split; [congruence|tauto].
Qed.
Lemma RI_visit (K : region -> tracker -> Prop) cut r t t' ids n nd : RI K cut (r, t) ids -> K r t' -> nodes r !! n = Some nd -> st t n = Frontier -> (forall m, st t' m = Behind <-> m = n \/ st t m = Behind) ->
  RI K cut (r, t') (if decide (cut <= nd_id nd) then ids else ids ++ [nd_id nd]) /\ (nd_id nd < cut -> nd_id nd ∉ ids).
Proof.
  intros [H1 H2 H3 H4 H5 H6] HK Hn Hs S. cbn [fst snd] in *. assert (nd_id nd < cut -> nd_id nd ∉ ids) as Hni. { intros Hc Hin. apply (H6 n nd Hn Hc) in Hin. congruence. }
  split; [|assumption]. cased D.
  - constructor; try assumption. cbn [fst snd]. intros m md Hm Hc. rewrite S, (H6 m md Hm Hc). split; [|tauto]. intros [->|?]; [|assumption]. exfalso. assert (md = nd) as -> by congruence. lia.
  - assert (nd_id nd < cut) as D' by lia. constructor; try assumption; cbn [fst snd].
    + intros id. rewrite elem_of_app, elem_of_list_singleton. intros [?| ->]; [auto|assumption].
    + apply NoDup_app. split; [assumption|]. split; [|apply NoDup_singleton]. intros x Hx Hx'. apply elem_of_list_singleton in Hx' as ->. exact (Hni D' Hx).
    + intros m md Hm Hc. rewrite S, (H6 m md Hm Hc), elem_of_app, elem_of_list_singleton. split.
      * intros [->|?]; [right; congruence|now left].
      * intros [?|E]; [now right|left]. destruct (v_id _ H1) as [_ U]. exact (U m n md nd Hm Hn E).
Qed.
Lemma peek_frontier t n : fr_ok t -> peek t = Some n -> st t n = Frontier.
Proof. intros [_ F] H. unfold peek in H. apply F. destruct (frontier t); [discriminate|]. injection H as ->. now left. Qed.
Lemma peek_none t : fr_ok t -> peek t = None -> forall n, st t n <> Frontier.
Proof. intros [_ F] H n K. apply F in K. unfold peek in H. destruct (frontier t); [inversion K|discriminate]. Qed.

(** the edges of the tracker are the dependences of the region *)
Lemma uses_E r m n : Inv r -> uses r m n <-> exists i, E_td r !! i = Some (Some n, Some m).
Proof.
  intros HI. pose proof (k_o _ _ (v_core _ HI)) as HO. split.
  - intros (nd & i & o & x & Hn & Ho & Hx & Hxo & Hxw). exists i. apply E_td_some. exists x. split; [assumption|]. rewrite Hxo, Hxw. cbn. split; [|reflexivity]. symmetry.
    apply output_node_some; [assumption|]. eauto.
  - intros [i H]. apply E_td_some in H as (x & Hx & Hf & Hw). destruct (in_origin x) as [o|] eqn:Ho; [|discriminate]. cbn in Hf. symmetry in Hf. apply output_node_some in Hf as (nd & Hn & Hin); [|assumption].
    exists nd, i, o, x. repeat (split; [assumption|]). destruct (in_owner x); cbn in Hw; congruence.
Qed.
Lemma uses_E_bu r m n : Inv r -> uses r m n <-> exists i, E_bu r !! i = Some (Some m, Some n).
Proof. intros HI. rewrite (uses_E r m n HI). split; intros [i H]; exists i; now apply E_bu_some. Qed.
Lemma all_active E t n : deg E n <= cnt E t n -> forall i f, E !! i = Some (f, Some n) -> active t f.
Proof.
  intros H i f Hi. destruct (decide (active t f)) as [|D]; [assumption|exfalso].
  assert (cnt E t n < deg E n); [|lia]. unfold cnt, deg. rewrite (size_filter_split (fun kv => kv.2.2 = Some n) (fun kv => kv.2.2 = Some n /\ active t kv.2.1) (fun kv => kv.2.2 = Some n /\ ~ active t kv.2.1)).
  - assert (size (filter (fun kv : nat * (option nat * option nat) => kv.2.2 = Some n /\ ~ active t kv.2.1) E) <> 0); [|lia]. intros Z. apply map_size_empty_inv in Z.
    assert (filter (fun kv : nat * (option nat * option nat) => kv.2.2 = Some n /\ ~ active t kv.2.1) E !! i = Some (f, Some n)) as Q by (apply map_filter_lookup_Some; cbn; auto). rewrite Z in Q. rewrite lookup_empty in Q. discriminate.
  - intros x. destruct (decide (active t x.2.1)); tauto.
  - tauto.
Qed.
Lemma some_inactive E t n : cnt E t n < deg E n -> exists i m, E !! i = Some (Some m, Some n) /\ st t m <> Behind.
Proof.
  intros H. destruct (decide (filter (fun kv : nat * (option nat * option nat) => kv.2.2 = Some n /\ ~ active t kv.2.1) E = ∅)) as [Z|Z].
  - exfalso. assert (deg E n <= cnt E t n); [|lia]. unfold deg, cnt. apply Nat.eq_le_incl, size_filter_ext. intros i [f w]. cbn. split; [|tauto]. intros [H1 H2]. split; [assumption|]. split; [assumption|].
    destruct (decide (active t f)) as [|D]; [assumption|exfalso]. assert (filter (fun kv : nat * (option nat * option nat) => kv.2.2 = Some n /\ ~ active t kv.2.1) E !! i = Some (f, w)) as Q by (apply map_filter_lookup_Some; cbn; auto).
    rewrite Z in Q. rewrite lookup_empty in Q. discriminate.
  - apply map_choose in Z as (i & [f w] & Q). apply map_filter_lookup_Some in Q as (Q & Ew & A). cbn in A, Ew. subst w. destruct f as [m|]; [|exfalso; apply A; exact I]. exists i, m. auto.
Qed.
Lemma acyclic_flip r : Inv r -> acyclic r -> forall n, Acc (flip (uses r)) n.
Proof.
  intros HI HA n. apply tc_finite_sn.
  - intros x Hx. assert (forall y, Acc (uses r) y -> tc (uses r) y y -> False) as K.
    { intros y Hy. induction Hy as [y _ IH]. intros Hc.
      assert (exists z, uses r z y /\ (z = y \/ tc (uses r) y z)) as (z & Hz & Hr).
      { enough (forall a c, tc (uses r) a c -> exists z, uses r z c /\ (z = a \/ tc (uses r) a z)) as G by exact (G _ _ Hc).
        clear. intros a c H. induction H as [a c H|a d c H _ IH]; [exists a; auto|]. destruct IH as (z & Hz & [->|Hr]); [exists d; split; [assumption|right; now apply tc_once]|].
        exists z. split; [assumption|right]. eapply tc_l; eassumption. }
      apply (IH z Hz). destruct Hr as [->|Hr]; [now apply tc_once|]. eapply tc_l; eassumption. }
    exact (K x (HA x) Hx).
  - exists (elements (dom (nodes r))). intros y Hy. apply elem_of_elements, elem_of_dom.
    assert (exists z, uses r z y) as [z Hz]. { clear HI HA. induction Hy; eauto. } destruct Hz as (nd & _ & _ & _ & Hn & _). now exists nd.
Qed.
