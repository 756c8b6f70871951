(** When a call can be inlined. *)
From stdpp Require Import base list gmap.
From Coq Require Import ZArith Lia.
From Verif.LocalRegion Require Import Model Spec Facts.
From Verif.Unswitch Require Import Model Spec Proofs1 Proofs2 Proofs3.
From Verif.Sinking Require Import Spec.
From Verif.Hoisting Require Import Model Spec Proofs1 Proofs2.
From Verif.Inlining Require Import Model Spec Proofs1 Proofs2 Proofs3 Proofs4.
Open Scope nat_scope.

Lemma insert_all_some l : forall k (s : gmap nat nat) x, length l = length k -> x ∈ l \/ is_Some (s !! x) -> is_Some (insert_all l k s !! x).
Proof.
  induction l as [|y l IH]; intros [|z k] s x Hl Hx; try done; [destruct Hx as [Hx|Hx]; [by apply elem_of_nil in Hx | done]|]. rewrite insert_all_cons. apply IH; [by injection Hl|]. destruct (decide (x = y)) as [->|Hne]; [right; by rewrite lookup_insert|].
  destruct Hx as [Hx|Hx]; [left; by apply elem_of_cons in Hx as [?|?]|]. right. by rewrite lookup_insert_ne.
Qed.
Lemma mapM_total (s : gmap nat nat) l : (forall x, x ∈ l -> is_Some (s !! x)) -> is_Some (mapM (fun x => s !! x) l).
Proof. intros H. apply mapM_is_Some. by apply Forall_forall. Qed.
Lemma copy_total l : forall s next, (forall l1 n l2 x, l = l1 ++ n :: l2 -> x ∈ nins n -> is_Some (s !! x) \/ x ∈ all_outs l1) ->
  exists l' s' next', copy_nodes l s next = Some (l', s', next') /\ forall x, is_Some (s !! x) \/ x ∈ all_outs l -> is_Some (s' !! x).
Proof.
  induction l as [|n l IH]; intros s next H; cbn [copy_nodes].
  - exists [], s, next. split; [done|]. intros x [Hx|Hx]; [done | by apply elem_of_nil in Hx].
  - unfold copy_node. destruct (mapM_total s (nins n)) as [ins Hins]. { intros x Hx. destruct (H [] n l x eq_refl Hx) as [?|Hc]; [done | by apply elem_of_nil in Hc]. }
    rewrite Hins. cbn [mbind option_bind]. set (s0 := insert_all (nouts n) (seq next (length (nouts n))) s).
    assert (H0 : forall x, is_Some (s !! x) \/ x ∈ nouts n -> is_Some (s0 !! x)) by (intros x Hx; apply insert_all_some; [by rewrite seq_length | tauto]).
    destruct (IH s0 (next + length (nouts n))) as (l' & s' & next' & E & Hs').
    { intros l1 m l2 x -> Hx. destruct (H (n :: l1) m l2 x eq_refl Hx) as [Hs|Ho]; [left; apply H0; by left|]. rewrite all_outs_cons in Ho. apply elem_of_app in Ho as [Ho|Ho]; [left; apply H0; by right | by right]. }
    rewrite E. cbn [mbind option_bind]. eexists _, _, _. split; [done|]. intros x Hx. apply Hs'. rewrite all_outs_cons, elem_of_app in Hx. destruct Hx as [Hx|[Hx|Hx]]; [left; apply H0; by left | left; apply H0; by right | by right].
Qed.
Lemma splice_total bar ptr callee j deps r id fn ops outs : wf_region callee -> in_order callee -> rnodes r !! j = Some (Node (KSimple (OOther id)) (fn :: ops) outs) -> length (rargs callee) = length ops + length deps -> length (rres callee) = length outs -> 2 <= length ops ->
  is_Some (splice bar ptr callee j deps r).
Proof.
  intros (_ & _ & Hr) Ho Hj L1 L2 L3. unfold splice. rewrite Hj. rewrite decide_True by done. destruct (lookup_lt_is_Some_2 ops (length ops - 2)) as [io ->]; [lia|]. cbn [mbind option_bind].
  destruct (barriers bar ptr io (ops ++ deps) 0 (region_bound r)) as [bs tgts] eqn:Eb. destruct (barriers_shape _ _ _ _ _ _ _ _ Eb) as (Hl & _). rewrite app_length in Hl.
  assert (Hk : forall x, x ∈ rargs callee -> is_Some (insert_all (rargs callee) tgts ∅ !! x)) by (intros x Hx; apply insert_all_some; [lia | by left]).
  destruct (copy_total (rnodes callee) (insert_all (rargs callee) tgts ∅) (region_bound r + length bs)) as (copies & s & next' & -> & Hs).
  { intros l1 n l2 x E Hx. destruct (Ho l1 n l2 x E Hx) as [Ha|Ha]; [left; by apply Hk | by right]. }
  cbn [mbind option_bind]. destruct (mapM_total s (rres callee)) as [news ->]; [|done]. intros x Hx. apply Hs. apply Hr, elem_of_app in Hx as [Hx|Hx]; [left; by apply Hk | by right].
Qed.
Lemma inline_total bar ptr callee w : forall j deps r s id fn ops outs, wf_region callee -> in_order callee -> inside r w s -> rnodes s !! j = Some (Node (KSimple (OOther id)) (fn :: ops) outs) -> length (rargs callee) = length ops + length deps -> length (rres callee) = length outs -> 2 <= length ops ->
  is_Some (inline bar ptr callee w j deps r).
Proof.
  induction w as [|[i k] w IH]; intros j deps r s id fn ops outs Hw Ho Hin Hj L1 L2 L3; cbn [inline].
  - inversion Hin; subst. by eapply splice_total.
  - inversion Hin as [|r0 i0 k0 n s0 w0 s1 Hn Hs Hin']; subst. rewrite Hn. cbn [mbind option_bind]. rewrite Hs. cbn [mbind option_bind].
    assert (Hx : exists s2, inside (add_args s0 (seq (region_bound s0) (length deps))) w s2 /\ rnodes s2 !! j = Some (Node (KSimple (OOther id)) (fn :: ops) outs)).
    { inversion Hin' as [|r1 i1 k1 n1 s3 w1 s4 Hn1 Hs1 Hin1]; subst; [exists (add_args s (seq (region_bound s) (length deps))); split; [constructor | done] | exists s; split; [by eapply inside_there | done]]. }
    destruct Hx as (s2 & Hin2 & Hj2). destruct (IH j (seq (region_bound s0) (length deps)) _ s2 id fn ops outs Hw Ho Hin2 Hj2) as [s' ->]; [by rewrite seq_length | done | done | done].
Qed.
