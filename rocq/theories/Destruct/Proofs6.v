(** The graph of a lambda node's region is valid: invariants of the states on the way. *)
From stdpp Require Import base list gmap.
From Coq Require Import Lia.
From Verif.Construct Require Import Model Spec.
From Verif.Cfg Require Import Model Spec ProofsBase.
From Verif.LocalRegion Require Import Model Spec Facts.
From Verif.Unswitch Require Import Spec.
From Verif.Sinking Require Import Spec.
From Verif.Hoisting Require Import Spec.
From Verif.Destruct Require Import Model Spec Proofs1 Proofs2 Proofs3 Proofs4 Proofs5.

(** p is before n *)
Definition pred (B : gmap nat block) (p n : nat) : Prop := (p = entry /\ n = 2) \/ exists b, B !! p = Some b /\ n ∈ succ b.
(** the invariants of a block; P: blocks that still get successors, Q: that still get operands of phis *)
Record block_ok (B : gmap nat block) (P Q : nat -> Prop) (n : nat) (b : block) : Prop := BlockOk {
  bo_edges : forall m, m ∈ succ b -> m = exit \/ is_Some (B !! m);
  bo_succ : ~ P n -> succ b <> [] /\ (length (succ b) <> 1 -> exists p, last (code b) = Some (Tac (BranchOn p)));
  bo_code : exists ps ts, code b = map phi ps ++ (Tac <$> ts) /\ (~ Q n -> forall q, q ∈ ps -> NoDup (fst <$> q.2) /\ forall p, p ∈ fst <$> q.2 <-> pred B p n)
}.
(** N: blocks that have no predecessors yet *)
Record V (B : gmap nat block) (P Q N : nat -> Prop) : Prop := MkV {
  v_blocks : forall n b, B !! n = Some b -> block_ok B P Q n b;
  v_in : forall n, is_Some (B !! n) -> ~ N n -> exists p, pred B p n
}.
Notation "P ∪ n" := (fun x => P x \/ x = n) (at level 50, left associativity, only parsing).
Definition philess (b : block) : Prop := forall ps ts, code b = map phi ps ++ (Tac <$> ts) -> ps = [].
Lemma philess_nil ss : philess (Block [] ss).
Proof. intros [|p ps] ts H; [done|]. discriminate. Qed.
Lemma V_weaken B (P P' Q Q' N N' : nat -> Prop) : (forall n, is_Some (B !! n) -> P n -> P' n) -> (forall n, is_Some (B !! n) -> Q n -> Q' n) -> (forall n, is_Some (B !! n) -> N n -> N' n) -> V B P Q N -> V B P' Q' N'.
Proof.
  intros H1 H2 H3 [V1 V2]. split.
  - intros n b Hb. assert (Hs : is_Some (B !! n)) by eauto. destruct (V1 n b Hb) as [A1 A2 (ps & ts & A3 & A4)]. split; [done | intros Hn; apply A2; intros Hp; by apply Hn, H1 |]. exists ps, ts. split; [done|]. intros Hn. apply A4. intros Hq. by apply Hn, H2.
  - intros n Hs Hn. apply V2; [done|]. intros Hn'. by apply Hn, H3.
Qed.
Lemma V_unpend B P Q N n : V B (P ∪ n) Q N -> (forall b, B !! n = Some b -> succ b <> [] /\ (length (succ b) <> 1 -> exists p, last (code b) = Some (Tac (BranchOn p)))) -> V B P Q N.
Proof.
  intros [V1 V2] H. split; [|done]. intros k b Hb. destruct (V1 k b Hb) as [A1 A2 A3]. split; [done| |done]. intros Hk. destruct (decide (k = n)) as [->|Hne]; [by apply H|]. apply A2. tauto.
Qed.
Lemma V_unhole B P Q N n : V B P (Q ∪ n) N -> (forall b, B !! n = Some b -> exists ps ts, code b = map phi ps ++ (Tac <$> ts) /\ forall q, q ∈ ps -> NoDup (fst <$> q.2) /\ forall p, p ∈ fst <$> q.2 <-> pred B p n) -> V B P Q N.
Proof.
  intros [V1 V2] H. split; [|done]. intros k b Hb. destruct (V1 k b Hb) as [A1 A2 (ps & ts & A3 & A4)]. split; [done | done|]. destruct (decide (k = n)) as [->|Hne].
  - destruct (H b Hb) as (ps' & ts' & H1 & H2). by exists ps', ts'.
  - exists ps, ts. split; [done|]. intros Hq. apply A4. tauto.
Qed.
Lemma V_unin B P Q N n : V B P Q (N ∪ n) -> (exists p, pred B p n) -> V B P Q N.
Proof. intros [V1 V2] H. split; [done|]. intros k Hk Hn. destruct (decide (k = n)) as [->|Hne]; [done|]. apply V2; tauto. Qed.

(** edges *)
Lemma pred_alter (B : gmap nat block) f n p m : (forall b, succ (f b) = succ b) -> pred (alter f n B) p m <-> pred B p m.
Proof.
  intros Hf. unfold pred. split; intros [H|(b & Hb & Hm)]; [by left| |by left|]; right.
  - destruct (decide (p = n)) as [->|Hne]; [|rewrite lookup_alter_ne in Hb by done; eauto]. rewrite lookup_alter in Hb. apply fmap_Some in Hb as (b0 & Hb & ->). rewrite Hf in Hm. eauto.
  - destruct (decide (p = n)) as [->|Hne]; [|exists b; by rewrite lookup_alter_ne]. exists (f b). by rewrite lookup_alter, Hb, Hf.
Qed.
Lemma pred_edge (B : gmap nat block) n m p k : is_Some (B !! n) -> pred (alter (fun b => Block (code b) (succ b ++ [m])) n B) p k <-> pred B p k \/ (p = n /\ k = m).
Proof.
  intros [b0 Hb0]. unfold pred. split.
  - intros [H|(b & Hb & Hm)]; [by left; left|]. destruct (decide (p = n)) as [->|Hne]; [|rewrite lookup_alter_ne in Hb by done; left; right; eauto]. rewrite lookup_alter, Hb0 in Hb. injection Hb as <-. cbn [succ] in Hm. apply elem_of_app in Hm as [Hm|Hm%elem_of_list_singleton]; [|by right]. left. right. eauto.
  - intros [[H|(b & Hb & Hm)]|[-> ->]]; [by left| |]; right.
    + destruct (decide (p = n)) as [->|Hne]; [|exists b; by rewrite lookup_alter_ne]. rewrite lookup_alter, Hb. cbn. eexists. split; [done|]. cbn. rewrite elem_of_app. by left.
    + rewrite lookup_alter, Hb0. cbn. eexists. split; [done|]. cbn. rewrite elem_of_app. right. by apply elem_of_list_singleton.
Qed.
Lemma pred_new (B : gmap nat block) n p k : B !! n = None -> pred (<[n := Block [] []]> B) p k <-> pred B p k.
Proof.
  intros Hn. unfold pred. split; intros [H|(b & Hb & Hm)]; [by left| |by left|]; right.
  - destruct (decide (p = n)) as [->|Hne]; [|rewrite lookup_insert_ne in Hb by done; eauto]. rewrite lookup_insert in Hb. injection Hb as <-. by apply elem_of_nil in Hm.
  - exists b. split; [|done]. rewrite lookup_insert_ne; [done|]. intros ->. congruence.
Qed.
Lemma is_Some_alter (B : gmap nat block) f n m : is_Some (alter f n B !! m) <-> is_Some (B !! m).
Proof. destruct (decide (m = n)) as [->|Hne]; [by rewrite lookup_alter, fmap_is_Some | by rewrite lookup_alter_ne]. Qed.

Lemma V_new B P Q N n : B !! n = None -> V B P Q N -> V (<[n := Block [] []]> B) (P ∪ n) Q (N ∪ n).
Proof.
  intros Hn [V1 V2]. assert (Hsome : forall m, is_Some (B !! m) -> is_Some (<[n := Block [] []]> B !! m)) by (intros m Hm; rewrite lookup_insert_is_Some; destruct (decide (n = m)); [by left | by right]). split.
  - intros k b Hb. destruct (decide (k = n)) as [->|Hne].
    + rewrite lookup_insert in Hb. injection Hb as <-. split; [by intros m ?%elem_of_nil | tauto|]. exists [], []. split; [done|]. by intros _ q ?%elem_of_nil.
    + rewrite lookup_insert_ne in Hb by done. destruct (V1 k b Hb) as [A1 A2 (ps & ts & A3 & A4)]. split; [|intros Hk; apply A2; tauto|].
      * intros m Hm. destruct (A1 m Hm) as [|]; [by left|]. right. by apply Hsome.
      * exists ps, ts. split; [done|]. intros Hq q Hq'. destruct (A4 Hq q Hq') as [B1 B2]. split; [done|]. intros p. by rewrite pred_new.
  - intros k Hk Hnk. destruct (V2 k) as [p Hp]; [|tauto | exists p; by apply pred_new]. rewrite lookup_insert_is_Some in Hk. destruct Hk as [->|[_ Hk]]; [tauto | done].
Qed.
Lemma V_edge B (P Q N : nat -> Prop) n m : is_Some (B !! n) -> P n -> (m = exit \/ exists b, B !! m = Some b /\ (Q m \/ philess b)) -> B !! exit = None -> V B P Q N -> V (alter (fun b => Block (code b) (succ b ++ [m])) n B) P Q (fun k => N k /\ k <> m).
Proof.
  intros Hn Hp Hm Hx [V1 V2]. split.
  - intros k b Hb. assert (Hb0 : exists b0, B !! k = Some b0 /\ code b = code b0 /\ (k <> n -> succ b = succ b0) /\ forall j, j ∈ succ b -> j ∈ succ b0 \/ j = m).
    { destruct (decide (k = n)) as [->|Hne]; [|rewrite lookup_alter_ne in Hb by done; exists b; by repeat split; auto]. rewrite lookup_alter in Hb. apply fmap_Some in Hb as (b0 & Hb & ->). exists b0. split; [done|]. split; [done|]. split; [done|]. intros j [Hj|Hj%elem_of_list_singleton]%elem_of_app; tauto. }
    destruct Hb0 as (b0 & Hb0 & Hc & Hs1 & Hs2). destruct (V1 k b0 Hb0) as [A1 A2 (ps & ts & A3 & A4)]. split.
    + intros j Hj. rewrite is_Some_alter. destruct (Hs2 j Hj) as [Hj'| ->]; [by apply A1|]. destruct Hm as [|(b' & Hb' & _)]; [by left | right; eauto].
    + intros Hk. assert (k <> n) by (intros ->; tauto). rewrite Hs1, Hc by done. by apply A2.
    + rewrite Hc. exists ps, ts. split; [done|]. intros Hq q Hq'. destruct (A4 Hq q Hq') as [B1 B2]. split; [done|]. intros p. rewrite B2, pred_edge by done. split; [tauto|]. intros [H|[-> ->]]; [done|]. exfalso. destruct Hm as [->|(b' & Hb' & [H|H])]; [congruence | done|].
      rewrite Hb0 in Hb'. injection Hb' as <-. rewrite (H ps ts A3) in Hq'. by apply elem_of_nil in Hq'.
  - intros k Hk Hnk. rewrite is_Some_alter in Hk. destruct (decide (k = m)) as [->|Hne]; [exists n; rewrite pred_edge by done; tauto|]. destruct (V2 k Hk) as [p Hp']; [tauto|]. exists p. rewrite pred_edge by done. by left.
Qed.
(** an edge that ends a block *)
Lemma V_goto B (P Q N : nat -> Prop) n m c : B !! n = Some (Block c []) -> (m = exit \/ exists b, B !! m = Some b /\ (Q m \/ philess b)) -> B !! exit = None -> V B (P ∪ n) Q N -> V (alter (fun b => Block (code b) (succ b ++ [m])) n B) P Q (fun k => N k /\ k <> m).
Proof.
  intros Hn Hm Hx HV. apply (V_unpend _ _ _ _ n).
  - apply V_edge; [eauto | tauto | done | done | done].
  - intros b Hb. rewrite lookup_alter, Hn in Hb. injection Hb as <-. done.
Qed.
(** other instructions *)
Lemma V_code B (P Q N : nat -> Prop) n f : (forall b, succ (f b) = succ b) -> (forall b, B !! n = Some b -> (P n \/ forall p, last (code b) = Some (Tac (BranchOn p)) -> last (code (f b)) = Some (Tac (BranchOn p))) /\ forall ps ts, code b = map phi ps ++ (Tac <$> ts) -> exists ps' ts', code (f b) = map phi ps' ++ (Tac <$> ts') /\ (Q n \/ ps' = ps \/ forall q, q ∈ ps' -> NoDup (fst <$> q.2) /\ forall p, p ∈ fst <$> q.2 <-> pred B p n)) ->
  V B P Q N -> V (alter f n B) P Q N.
Proof.
  intros Hf Hc [V1 V2]. split.
  - intros k b Hb. destruct (decide (k = n)) as [->|Hne].
    + rewrite lookup_alter in Hb. apply fmap_Some in Hb as (b0 & Hb & ->). destruct (V1 n b0 Hb) as [A1 A2 (ps & ts & A3 & A4)]. destruct (Hc b0 Hb) as [C1 C2]. split.
      * intros m Hm. rewrite is_Some_alter. rewrite Hf in Hm. by apply A1.
      * intros Hk. rewrite Hf. destruct (A2 Hk) as [B1 B2]. split; [done|]. intros Hl. destruct (B2 Hl) as [p Hp]. exists p. destruct C1; [done|]. eauto.
      * destruct (C2 ps ts A3) as (ps' & ts' & D1 & D2). exists ps', ts'. split; [done|]. intros Hq q Hq'. destruct D2 as [|[->|D2]]; [done | |].
        -- destruct (A4 Hq q Hq') as [E1 E2]. split; [done|]. intros p. by rewrite pred_alter.
        -- destruct (D2 q Hq') as [E1 E2]. split; [done|]. intros p. by rewrite pred_alter.
    + rewrite lookup_alter_ne in Hb by done. destruct (V1 k b Hb) as [A1 A2 (ps & ts & A3 & A4)]. split; [|done|].
      * intros m Hm. rewrite is_Some_alter. by apply A1.
      * exists ps, ts. split; [done|]. intros Hq q Hq'. destruct (A4 Hq q Hq') as [E1 E2]. split; [done|]. intros p. by rewrite pred_alter.
  - intros k Hk Hnk. rewrite is_Some_alter in Hk. destruct (V2 k Hk Hnk) as [p Hp]. exists p. by rewrite pred_alter.
Qed.
Lemma V_tac B (P Q N : nat -> Prop) n t : P n -> V B P Q N -> V (alter (fun b => Block (code b ++ [Tac t]) (succ b)) n B) P Q N.
Proof.
  intros Hp. apply V_code; [done|]. intros b Hb. split; [by left|]. intros ps ts H. exists ps, (ts ++ [t]). cbn [code]. rewrite H, fmap_app, (assoc_L (++)). tauto.
Qed.

Lemma ok_exit s : ok s -> bl s !! exit = None.
Proof. intros H. destruct (bl s !! exit) eqn:E; [|done]. exfalso. assert (1 < exit < nb s) by (apply (ok_dom s H); eauto). unfold exit in *. lia. Qed.
Lemma ok_fresh s n : ok s -> nb s <= n -> bl s !! n = None.
Proof. intros H Hn. destruct (bl s !! n) eqn:E; [|done]. exfalso. assert (1 < n < nb s) by (apply (ok_dom s H); eauto). lia. Qed.
Lemma dom_exit s : dom_ok s -> bl s !! exit = None.
Proof. intros [H1 H2]. destruct (bl s !! exit) eqn:E; [|done]. exfalso. assert (1 < exit < nb s) by (apply H2; eauto). unfold exit in *. lia. Qed.
Lemma dom_fresh s n : dom_ok s -> nb s <= n -> bl s !! n = None.
Proof. intros [H1 H2] Hn. destruct (bl s !! n) eqn:E; [|done]. exfalso. assert (1 < n < nb s) by (apply H2; eauto). lia. Qed.
Lemma next_block_V s (P Q N : nat -> Prop) : ok s -> V (bl s) (P ∪ cur s) Q N -> V (bl (next_block s)) (P ∪ nb s) Q N.
Proof.
  intros Hk HV. pose proof (ok_cur_lt _ Hk). destruct (ok_cur s Hk) as [c Hc]. unfold next_block, set_cur, add_edge, create_block. cbn [bl cur nb].
  assert (Hn : bl s !! nb s = None) by (by apply ok_fresh). assert (Hc' : <[nb s := Block [] []]> (bl s) !! cur s = Some (Block c [])) by (rewrite lookup_insert_ne by lia; done).
  eapply V_weaken; [| | |eapply (V_goto _ (P ∪ nb s) Q (N ∪ nb s) (cur s) (nb s)); [exact Hc' | right; exists (Block [] []); split; [by rewrite lookup_insert | right; apply philess_nil] | rewrite lookup_insert_ne; [by apply ok_exit | unfold exit; lia] |]].
  - intros n _. done.
  - intros n _. done.
  - cbv beta. intros n _ [[H1|H1] H2]; [exact H1 | done].
  - eapply V_weaken; [| | |apply V_new; [exact Hn | exact HV]].
    + cbv beta. tauto.
    + done.
    + done.
Qed.
Lemma next_block_pred s : ok s -> forall p m, pred (bl (next_block s)) p m <-> pred (bl s) p m \/ (p = cur s /\ m = nb s).
Proof.
  intros Hk p m. pose proof (ok_cur_lt _ Hk). destruct (ok_cur s Hk) as [c Hc]. unfold next_block, set_cur, add_edge, create_block. cbn [bl cur nb].
  rewrite pred_edge by (rewrite lookup_insert_ne by lia; eauto). rewrite pred_new; [done | by apply ok_fresh].
Qed.
