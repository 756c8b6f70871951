(** Facts about edges, blocks and runs. *)
From stdpp Require Import base list list_numbers fin_sets gmap fin_maps relations tactics.
From Verif.Construct Require Import Model Spec.
From Verif.Cfg Require Import Model Spec.

Lemma elem_edges g n m : (n, m) ∈ edges g <-> edge g n m.
Proof.
  unfold edges, edge. rewrite elem_of_cons, elem_of_list_bind. split.
  - intros [[= -> ->]|((k & b) & (? & [= -> ->] & Hin)%elem_of_list_fmap & Hb%elem_of_map_to_list)]; [by left|right; eauto].
  - intros [(-> & ->)|(b & Hb & Hin)]; [by left|right]. exists (n, b). split; [by apply elem_of_list_fmap; eauto|by apply elem_of_map_to_list].
Qed.
Lemma in_degree_one g s p q : in_degree g s = 1 -> edge g p s -> edge g q s -> p = q.
Proof.
  unfold in_degree. intros H Hp%elem_edges Hq%elem_edges.
  assert (Hp' : (p, s) ∈ filter (fun e => e.2 = s) (edges g)) by by apply elem_of_list_filter.
  assert (Hq' : (q, s) ∈ filter (fun e => e.2 = s) (edges g)) by by apply elem_of_list_filter.
  destruct (filter _ (edges g)) as [|e [|]]; try discriminate.
  apply elem_of_list_singleton in Hp', Hq'. congruence.
Qed.
Lemma redirect_ne n m k : k <> n -> redirect n m k = k.
Proof. intros. unfold redirect. by rewrite decide_False. Qed.
Lemma redirect_eq n m : redirect n m n = m.
Proof. unfold redirect. by rewrite decide_True. Qed.
Lemma redirect_not n m k : n <> m -> redirect n m k <> n.
Proof. unfold redirect. intros. by destruct (decide (k = n)). Qed.
Lemma remove_node_some n g : (forall p, edge g p n -> p = n) -> remove_node n g = Some (Cfg (delete n (blocks g)) (start g)).
Proof.
  intros H. unfold remove_node. rewrite decide_True; [done|]. apply Forall_forall. intros [p q] Hin Heq. cbn in Heq. subst q. apply H. apply elem_edges, elem_of_list_In. exact Hin.
Qed.
Lemma split_phis_app l l' : match l' with Phi _ _ :: _ => False | _ => True end -> split_phis (l ++ l') = ((split_phis l).1, (split_phis l).2 ++ l').
Proof.
  intros H. induction l as [|[r ops|x] l IH]; [destruct l' as [|[]]; [reflexivity|destruct H|reflexivity]| |reflexivity].
  cbn. rewrite IH. by destruct (split_phis l).
Qed.
Lemma split_phis_none l : match l with Phi _ _ :: _ => False | _ => True end -> split_phis l = ([], l).
Proof. destruct l as [|[]]; [reflexivity|intros []|reflexivity]. Qed.
#[global] Arguments plain : simpl never.
Lemma plain_cons x l : plain (Tac x :: l) = (ts ← plain l; Some (x :: ts)).
Proof. unfold plain. cbn. by destruct (mapM _ l). Qed.
Lemma plain_phi r ops l : plain (Phi r ops :: l) = None.
Proof. reflexivity. Qed.
Lemma plain_app l l' : plain (l ++ l') = (ts ← plain l; ts' ← plain l'; Some (ts ++ ts')).
Proof.
  induction l as [|[r ops|x] l IH]; cbn [app].
  - change (plain []) with (Some (@nil tac)). cbn. by destruct (plain l').
  - by rewrite !plain_phi.
  - rewrite !plain_cons, IH. destruct (plain l); [|done]. cbn. by destruct (plain l').
Qed.
Lemma plain_spec l ts : plain l = Some ts <-> l = Tac <$> ts.
Proof.
  unfold plain. revert ts. induction l as [|i l IH]; intros ts; [split; [by intros [= <-]|by destruct ts]|]. cbn. split.
  - destruct i as [|x]; [done|]. cbn. destruct (mapM _ l) as [us|] eqn:E; [|done]. intros [= <-]. cbn. f_equal. by apply IH.
  - destruct ts as [|x ts]; [done|]. intros [= -> Hl]. cbn. apply IH in Hl. rewrite Hl. done.
Qed.
Lemma no_phi_head b : has_phi b = false -> match code b with Phi _ _ :: _ => False | _ => True end.
Proof. unfold has_phi. destruct (code b) as [|[]]; [reflexivity|discriminate|reflexivity]. Qed.

Lemma mapM_cons_eq {A B} (f : A -> option B) x l : mapM f (x :: l) = (y ← f x; k ← mapM f l; Some (y :: k)).
Proof. reflexivity. Qed.
Lemma mapM_map {A B C} (f : B -> option C) (h : A -> B) (k : A -> option C) l : (forall x, f (h x) = k x) -> mapM f (h <$> l) = mapM k l.
Proof. intros H. induction l as [|x l IH]; [done|]. rewrite fmap_cons, !mapM_cons_eq, H, IH. done. Qed.

Section Runs.
  Context {V : Type} (ctl : V -> option nat) (sem : nat -> list V -> option (list V)) (truth : V -> bool).
  Implicit Types σ : nat -> V.
  Lemma exec_block_app l l' σ σ' : exec_block sem truth (l ++ l') σ σ' <-> exists σ1, exec_block sem truth l σ σ1 /\ exec_block sem truth l' σ1 σ'.
  Proof.
    revert σ. induction l as [|x l IH]; intros σ; cbn.
    - split; [eauto|by intros (? & -> & ?)].
    - split; [intros (σ1 & H1 & (σ2 & H2 & H3)%IH); eauto|]. intros (σ2 & (σ1 & H1 & H2) & H3). exists σ1. split; [done|]. apply IH. eauto.
  Qed.
  Lemma exec_code_app prev k l l' σ σ' : match l' with Phi _ _ :: _ => False | _ => True end ->
    exec_code sem truth prev (l ++ l') σ σ' <-> exists σ1, exec_code sem truth prev l σ σ1 /\ exec_code sem truth k l' σ1 σ'.
  Proof.
    intros H. unfold exec_code. rewrite (split_phis_app l l' H), (split_phis_none l' H). cbn. split.
    - intros (vs & ts & Hvs & Hts & Hex). rewrite plain_app in Hts.
      destruct (plain (split_phis l).2) as [t1|] eqn:E1; [|done]. destruct (plain l') as [t2|] eqn:E2; [|done]. cbn in Hts. injection Hts as <-.
      apply exec_block_app in Hex as (σ1 & H1 & H2). exists σ1. split; [by exists vs, t1|]. by exists [], t2.
    - intros (σ1 & (vs & t1 & Hvs & Ht1 & H1) & (vs2 & t2 & Hvs2 & Ht2 & H2)). injection Hvs2 as <-. cbn in H2.
      exists vs, (t1 ++ t2). split; [done|]. rewrite plain_app, Ht1, Ht2. split; [done|]. apply exec_block_app. by exists σ1.
  Qed.
  Lemma exec_code_prev p q l σ σ' : match l with Phi _ _ :: _ => False | _ => True end -> exec_code sem truth p l σ σ' -> exec_code sem truth q l σ σ'.
  Proof. intros H. unfold exec_code. by rewrite (split_phis_none l H). Qed.
  Lemma exec_code_nil p σ σ' : exec_code sem truth p [] σ σ' <-> σ' = σ.
  Proof.
    unfold exec_code. cbn. split.
    - intros (vs & ts & [= <-] & [= <-] & H). done.
    - intros ->. by exists [], [].
  Qed.
  Lemma goes_in b σ m : goes ctl b σ m -> m ∈ succ b.
  Proof.
    unfold goes. destruct (succ b) as [|s [|s' ss]]; [intros (? & ? & _ & _ & [=])| |intros (p & i & _ & _ & H); by eapply elem_of_list_lookup_2].
    intros ->. by left.
  Qed.
  (** the same successors up to a renaming, and the same branch *)
  Lemma goes_map (f : nat -> nat) b b' σ m : succ b' = f <$> succ b -> (length (succ b) <> 1 -> list.last (code b') = list.last (code b)) -> goes ctl b σ m -> goes ctl b' σ (f m).
  Proof.
    intros Hs Hc. unfold goes. rewrite Hs. destruct (succ b) as [|s [|s' ss]]; rewrite ?fmap_nil, ?fmap_cons.
    - intros (? & ? & _ & _ & [=]).
    - by intros ->.
    - intros (p & i & Hl & Hi & Hm). exists p, i. rewrite (Hc ltac:(done)). split; [done|]. split; [done|].
      change (f s :: f s' :: (f <$> ss)) with (f <$> (s :: s' :: ss)). by rewrite list_lookup_fmap, Hm.
  Qed.
  Lemma goes_unmap (f : nat -> nat) b b' σ m : succ b' = f <$> succ b -> (length (succ b) <> 1 -> list.last (code b') = list.last (code b)) -> goes ctl b' σ m ->
    exists m0, goes ctl b σ m0 /\ m = f m0.
  Proof.
    intros Hs Hc. unfold goes. rewrite Hs. destruct (succ b) as [|s [|s' ss]]; rewrite ?fmap_nil, ?fmap_cons.
    - intros (? & ? & _ & _ & [=]).
    - intros ->. eauto.
    - intros (p & i & Hl & Hi & Hm). rewrite (Hc ltac:(done)) in Hl.
      change (f s :: f s' :: (f <$> ss)) with (f <$> (s :: s' :: ss)) in Hm. rewrite list_lookup_fmap in Hm.
      destruct ((s :: s' :: ss) !! i) as [m0|] eqn:E; [|done]. injection Hm as <-. exists m0. split; [|done]. eauto.
  Qed.
  Lemma runs_exit_inv g prev σ σ' : blocks g !! exit = None -> runs ctl sem truth g prev exit σ σ' -> σ' = σ.
  Proof. intros H Hr. inversion Hr; [done|congruence]. Qed.
End Runs.
