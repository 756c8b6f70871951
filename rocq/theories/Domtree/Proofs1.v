(** The iteration: chains of candidates, and what a pass does. *)
From stdpp Require Import base list fin_sets gmap fin_maps.
From Coq Require Import Lia.
From Verif.Cfg Require Import Model.
From Verif.Domtree Require Import Model Spec.

(** a is on the chain of candidates from x upwards *)
Inductive anc (D : gmap nat nat) : nat -> nat -> Prop :=
  | anc_refl x : anc D x x
  | anc_up a x d : D !! x = Some d -> anc D a d -> anc D a x.
Lemma anc_trans D a b x : anc D a b -> anc D b x -> anc D a x.
Proof. intros Ha H. induction H as [|b x d Hd _ IH]; [done|]. eapply anc_up; [done|]. by apply IH. Qed.

Section Iteration.
  Context (g : cfg) (inedges : nat -> list nat) (rpo : list nat) (ix : gmap nat nat) (idx : nat -> nat) (M : nat).
  Hypothesis Hedge : forall v p, p ∈ inedges v <-> v ∈ sinks g p.
  Hypothesis Hsrc : forall v p, v ∈ sinks g p -> p ∈ rpo.
  Hypothesis Hix : forall x, x ∈ rpo -> ix !! x = Some (idx x).
  Hypothesis Hinj : forall x y, x ∈ rpo -> y ∈ rpo -> idx x = idx y -> x = y.
  Hypothesis HM : forall x, x ∈ rpo -> idx x <= M.
  Hypothesis Hentry : entry ∈ rpo.
  Hypothesis Htop : forall x, x ∈ rpo -> x <> entry -> idx x < idx entry.
  Hypothesis Hfwd : forall x, x ∈ rpo -> x <> entry -> exists p, p ∈ inedges x /\ idx x < idx p.
  Hypothesis Hwalk : forall x, x ∈ rpo -> exists l, walk g l x.
  Hypothesis Hsplit : forall l1 x l2 y, rpo = l1 ++ x :: l2 -> y ∈ rpo -> (y ∈ l1 <-> idx x < idx y).

  Record ok (D : gmap nat nat) : Prop := {
    ok_entry : D !! entry = Some entry;
    ok_node x d : D !! x = Some d -> x ∈ rpo;
    ok_next x d : D !! x = Some d -> is_Some (D !! d);
    ok_idx x d : D !! x = Some d -> x <> entry -> idx x < idx d;
  }.
  Lemma in_src v p : p ∈ inedges v -> p ∈ rpo.
  Proof. intros H%Hedge. by eapply Hsrc. Qed.
  Lemma next_node D x d : ok D -> D !! x = Some d -> d ∈ rpo.
  Proof. intros H Hx. destruct (ok_next D H x d Hx) as [e He]. by eapply ok_node. Qed.
  Lemma anc_some D a x : ok D -> is_Some (D !! x) -> anc D a x -> is_Some (D !! a).
  Proof. intros Ho Hx H. revert Hx. induction H as [|a x d Hd _ IH]; intros Hx; [done|]. apply IH. by eapply ok_next. Qed.
  Lemma anc_entry D a : ok D -> anc D a entry -> a = entry.
  Proof. intros Ho H. remember entry as x eqn:E. induction H as [|a x d Hd _ IH]; [done|]. subst x. rewrite (ok_entry D Ho) in Hd. injection Hd as <-. by apply IH. Qed.
  Lemma anc_idx D a x : ok D -> anc D a x -> a = x \/ idx x < idx a.
  Proof.
    intros Ho H. induction H as [|a x d Hd H IH]; [by left|]. destruct (decide (x = entry)) as [->|Hx].
    - left. apply (anc_entry D a Ho). eapply anc_up; [exact Hd|exact H].
    - right. pose proof (ok_idx D Ho x d Hd Hx). destruct IH as [->|IH]; lia.
  Qed.
  Lemma anc_le D a x : ok D -> anc D a x -> idx x <= idx a.
  Proof. intros Ho H. destruct (anc_idx D a x Ho H) as [->|]; lia. Qed.
  Lemma anc_between D a b x : ok D -> is_Some (D !! x) -> anc D a x -> anc D b x -> idx a <= idx b -> anc D b a.
  Proof.
    intros Ho Hx Ha. revert Hx. induction Ha as [|a x d Hd Ha IH]; intros Hx Hb Hle; [done|].
    inversion Hb as [|b' x' d' Hd' Hb']; subst.
    - assert (H : anc D a x) by (eapply anc_up; done). destruct (anc_idx D a x Ho H) as [->|]; [constructor | lia].
    - rewrite Hd in Hd'. injection Hd' as <-. apply IH; [by eapply ok_next | done | done].
  Qed.
  (** n is the closest common candidate of v's predecessors *)
  Definition meets (D : gmap nat nat) (v n : nat) : Prop :=
    (forall p, p ∈ inedges v -> is_Some (D !! p) -> anc D n p) /\ forall c, (forall p, p ∈ inedges v -> is_Some (D !! p) -> anc D c p) -> anc D c n.
  Lemma meets_unique D v n m : ok D -> (exists p, p ∈ inedges v /\ is_Some (D !! p)) -> meets D v n -> meets D v m -> n = m.
  Proof.
    intros Ho _ [H1 H2] [H3 H4]. specialize (H2 m H3). specialize (H4 n H1). destruct (anc_idx D m n Ho H2) as [|L1]; [done|]. destruct (anc_idx D n m Ho H4) as [|L2]; [done|]. lia.
  Qed.
  Lemma intersect_ok D fuel : ok D -> forall b1 b2, is_Some (D !! b1) -> is_Some (D !! b2) -> (M - idx b1) + (M - idx b2) < fuel ->
    exists b, intersect fuel ix D b1 b2 = Some b /\ anc D b b1 /\ anc D b b2 /\ forall c, anc D c b1 -> anc D c b2 -> anc D c b.
  Proof.
    intros Ho. induction fuel as [|fuel IH]; intros b1 b2 [d1 H1] [d2 H2] Hf; [lia|]. cbn [intersect].
    pose proof (ok_node D Ho _ _ H1) as N1. pose proof (ok_node D Ho _ _ H2) as N2. rewrite (Hix _ N1), (Hix _ N2). cbn [mbind option_bind]. pose proof (HM _ N1) as M1. pose proof (HM _ N2) as M2.
    destruct (idx b1 <? idx b2) eqn:E1; [apply Nat.ltb_lt in E1|apply Nat.ltb_ge in E1].
    - rewrite H1. cbn [mbind option_bind]. assert (Hne : b1 <> entry). { intros ->. destruct (decide (b2 = entry)) as [->|Hn]; [lia|]. pose proof (Htop _ N2 Hn). lia. }
      pose proof (ok_idx D Ho _ _ H1 Hne) as Hlt. pose proof (HM _ (next_node D _ _ Ho H1)) as M3.
      destruct (IH d1 b2) as (b & E & A1 & A2 & A3); [by eapply ok_next | by eexists | lia|]. exists b. split; [done|]. split; [by eapply anc_up|]. split; [done|].
      intros c C1 C2. apply A3; [|done]. inversion C1 as [|c' x d Hd C]; subst; [pose proof (anc_le D _ _ Ho C2); lia|]. rewrite H1 in Hd. by injection Hd as <-.
    - destruct (idx b2 <? idx b1) eqn:E2; [apply Nat.ltb_lt in E2|apply Nat.ltb_ge in E2].
      + rewrite H2. cbn [mbind option_bind]. assert (Hne : b2 <> entry). { intros ->. destruct (decide (b1 = entry)) as [->|Hn]; [lia|]. pose proof (Htop _ N1 Hn). lia. }
        pose proof (ok_idx D Ho _ _ H2 Hne) as Hlt. pose proof (HM _ (next_node D _ _ Ho H2)) as M3.
        destruct (IH b1 d2) as (b & E & A1 & A2 & A3); [by eexists | by eapply ok_next | lia|]. exists b. split; [done|]. split; [done|]. split; [by eapply anc_up|].
        intros c C1 C2. apply A3; [done|]. inversion C2 as [|c' x d Hd C]; subst; [pose proof (anc_le D _ _ Ho C1); lia|]. rewrite H2 in Hd. by injection Hd as <-.
      + assert (b1 = b2) as -> by (apply Hinj; [done..|lia]). exists b2. repeat split; try constructor. done.
  Qed.
  Lemma meet_ok D fuel first ps : ok D -> M + M < fuel -> forall cur, is_Some (D !! cur) ->
    exists b, meet fuel ix D first ps cur = Some b /\ anc D b cur /\ (forall p, p ∈ ps -> p <> first -> is_Some (D !! p) -> anc D b p) /\ forall c, anc D c cur -> (forall p, p ∈ ps -> p <> first -> is_Some (D !! p) -> anc D c p) -> anc D c b.
  Proof.
    intros Ho Hf. induction ps as [|p ps IH]; intros cur Hc; cbn [meet].
    - exists cur. split; [done|]. split; [constructor|]. split; [intros p Hp; by apply elem_of_nil in Hp | done].
    - destruct (decide (p = first)) as [->|Hne].
      + destruct (IH cur Hc) as (b & E & A1 & A2 & A3). exists b. split; [done|]. split; [done|]. split.
        * intros q Hq Hn Hs. apply elem_of_cons in Hq as [->|Hq]; [done | by apply A2].
        * intros c C1 C2. apply A3; [done|]. intros q Hq. apply C2. by right.
      + destruct (D !! p) as [d|] eqn:Hp.
        * destruct (intersect_ok D fuel Ho p cur) as (b0 & E0 & B1 & B2 & B3); [by eexists | done | lia|]. rewrite E0. cbn [mbind option_bind].
          assert (Hs : is_Some (D !! p)) by by eexists.
          destruct (IH b0) as (b & E & A1 & A2 & A3); [by eapply anc_some|]. exists b. split; [done|]. split; [by eapply anc_trans|]. split.
          -- intros q Hq Hn Hs'. apply elem_of_cons in Hq as [->|Hq]; [by eapply anc_trans | by apply A2].
          -- intros c C1 C2. apply A3; [apply B3; [apply C2; [by left|done..] | done]|]. intros q Hq. apply C2. by right.
        * destruct (IH cur Hc) as (b & E & A1 & A2 & A3). exists b. split; [done|]. split; [done|]. split.
          -- intros q Hq Hn Hs. apply elem_of_cons in Hq as [->|Hq]; [rewrite Hp in Hs; by destruct Hs | by apply A2].
          -- intros c C1 C2. apply A3; [done|]. intros q Hq. apply C2. by right.
  Qed.
  Lemma new_idom_ok D fuel v : ok D -> M + M < fuel -> (exists p, p ∈ inedges v /\ is_Some (D !! p)) -> exists n, new_idom inedges fuel ix D v = Some n /\ is_Some (D !! n) /\ meets D v n.
  Proof.
    intros Ho Hf (p0 & Hp0 & Hs0). unfold new_idom. destruct (filter (fun p => is_Some (D !! p)) (inedges v)) as [|p l] eqn:E.
    { exfalso. assert (H : p0 ∈ filter (fun p => is_Some (D !! p)) (inedges v)) by (by apply elem_of_list_filter). rewrite E in H. by apply elem_of_nil in H. }
    cbn [head mbind option_bind]. assert (Hp : p ∈ filter (fun p => is_Some (D !! p)) (inedges v)) by (rewrite E; left). apply elem_of_list_filter in Hp as [Hs Hp].
    destruct (meet_ok D fuel p (inedges v) Ho Hf p Hs) as (n & En & A1 & A2 & A3). exists n. split; [done|]. split; [by eapply anc_some|]. split.
    - intros q Hq Hsq. destruct (decide (q = p)) as [->|Hn]; [done | by apply A2].
    - intros c C. apply A3; [by apply C|]. intros q Hq _ Hsq. by apply C.
  Qed.

  (** all strict dominators of x dominate its candidate *)
  Definition low (D : gmap nat nat) : Prop := forall x d s, x <> entry -> D !! x = Some d -> s <> x -> dominates g s x -> dominates g s d.
  Lemma dom_refl x : dominates g x x.
  Proof. intros l H. inversion H; subst; [by left|]. apply elem_of_app. right. by left. Qed.
  Lemma dom_entry s : dominates g s entry -> s = entry.
  Proof. intros H. specialize (H [entry] (walk_entry g)). by apply elem_of_list_singleton in H. Qed.
  Lemma dom_pred s v p : s <> v -> dominates g s v -> p ∈ inedges v -> dominates g s p.
  Proof. intros Hn H Hp%Hedge l Hl. specialize (H (l ++ [v]) (walk_step g l p v Hl Hp)). apply elem_of_app in H as [H|H]; [done|]. by apply elem_of_list_singleton in H. Qed.
  Lemma dom_anc D s : ok D -> low D -> forall k x, M - idx x < k -> is_Some (D !! x) -> dominates g s x -> anc D s x.
  Proof.
    intros Ho Hl. induction k as [|k IH]; intros x Hk [d Hd] Hs; [lia|]. destruct (decide (s = x)) as [->|Hn]; [constructor|]. destruct (decide (x = entry)) as [->|Hx]; [by apply dom_entry in Hs|].
    eapply anc_up; [done|]. pose proof (ok_idx D Ho _ _ Hd Hx). pose proof (HM _ (next_node D _ _ Ho Hd)). apply IH; [lia | by eapply ok_next | by eapply Hl].
  Qed.
  Lemma dom_along D s n p : ok D -> low D -> is_Some (D !! p) -> dominates g s p -> anc D n p -> anc D s n -> dominates g s n.
  Proof.
    intros Ho Hl Hp Hs Hn. revert Hp Hs. induction Hn as [|n x d Hd Hn IH]; intros Hp Hs Ha; [done|]. destruct (decide (x = entry)) as [->|Hx].
    - apply dom_entry in Hs as ->. assert (H : anc D n entry) by (eapply anc_up; done). apply (anc_entry D n Ho) in H as ->. apply dom_refl.
    - destruct (decide (s = x)) as [->|Hsx].
      + pose proof (anc_le D _ _ Ho Ha). pose proof (anc_le D _ _ Ho Hn). pose proof (ok_idx D Ho _ _ Hd Hx). lia.
      + apply IH; [by eapply ok_next | by eapply Hl | done].
  Qed.
  Lemma meets_low D v n s : ok D -> low D -> (exists p, p ∈ inedges v /\ is_Some (D !! p)) -> meets D v n -> s <> v -> dominates g s v -> dominates g s n.
  Proof.
    intros Ho Hl (p & Hp & Hsp) [H1 H2] Hn Hs. assert (Hall : forall q, q ∈ inedges v -> is_Some (D !! q) -> anc D s q).
    { intros q Hq Hsq. apply (dom_anc D s Ho Hl (S (M - idx q))); [lia | done | by eapply dom_pred]. }
    eapply (dom_along D s n p); [done | done | done | by eapply dom_pred | by apply H1 | by apply H2].
  Qed.
  Lemma meets_idx D v n : ok D -> (exists p, p ∈ inedges v /\ is_Some (D !! p) /\ idx v < idx p) -> meets D v n -> idx v < idx n.
  Proof. intros Ho (p & Hp & Hs & Hlt) [H1 _]. pose proof (anc_le D _ _ Ho (H1 p Hp Hs)). lia. Qed.
  Lemma update_ok D v n : ok D -> v ∈ rpo -> v <> entry -> is_Some (D !! n) -> idx v < idx n -> ok (<[v := n]> D).
  Proof.
    intros Ho Hv Hne Hn Hlt. assert (Hsome : forall x, is_Some (D !! x) -> is_Some (<[v := n]> D !! x)) by (intros x Hx; destruct (decide (x = v)) as [->|]; [rewrite lookup_insert; by eexists | by rewrite lookup_insert_ne]).
    constructor.
    - rewrite lookup_insert_ne by done. by apply ok_entry.
    - intros x d Hx. destruct (decide (x = v)) as [->|Hxv]; [done|]. rewrite lookup_insert_ne in Hx by done. by eapply ok_node.
    - intros x d Hx. apply Hsome. destruct (decide (x = v)) as [->|Hxv]; [rewrite lookup_insert in Hx; by injection Hx as <-|]. rewrite lookup_insert_ne in Hx by done. by eapply ok_next.
    - intros x d Hx Hxe. destruct (decide (x = v)) as [->|Hxv]; [rewrite lookup_insert in Hx; by injection Hx as <-|]. rewrite lookup_insert_ne in Hx by done. by eapply ok_idx.
  Qed.
  Lemma update_low D v n : low D -> (forall s, s <> v -> dominates g s v -> dominates g s n) -> low (<[v := n]> D).
  Proof.
    intros Hl Hn x d s Hx Hd Hsx Hs. destruct (decide (x = v)) as [->|Hxv]; [rewrite lookup_insert in Hd; injection Hd as <-; by apply Hn|]. rewrite lookup_insert_ne in Hd by done. by eapply Hl.
  Qed.

  (** D' is what a pass makes of D *)
  Definition updated (D D' : gmap nat nat) (v : nat) : Prop :=
    exists n Dm, ok Dm /\ D' !! v = Some n /\ meets Dm v n /\ (forall x, x ∈ rpo -> idx v < idx x -> Dm !! x = D' !! x) /\ forall x, x ∈ rpo -> idx x <= idx v -> Dm !! x = D !! x.
  Record passed (D D' : gmap nat nat) : Prop := {
    ps_ok : ok D'; ps_low : low D'; ps_all x : x ∈ rpo -> is_Some (D' !! x);
    ps_step v : v ∈ rpo -> v <> entry -> updated D D' v;
  }.
  Lemma pass_ok fuel D0 : M + M < fuel -> ok D0 -> low D0 -> NoDup rpo -> forall l2 l1 D ch, rpo = l1 ++ l2 -> ok D -> low D -> (forall x, x ∈ l1 -> is_Some (D !! x)) -> (forall x, x ∉ l1 -> D !! x = D0 !! x) ->
    exists D' ch', pass inedges fuel ix l2 D ch = Some (D', ch') /\ ok D' /\ low D' /\ (forall x, x ∈ rpo -> is_Some (D' !! x)) /\ (forall x, x ∉ l2 -> D' !! x = D !! x) /\
      (forall v, v ∈ l2 -> v <> entry -> updated D0 D' v) /\ (ch' = false -> D' = D /\ ch = false) /\ (ch' = true -> ch = true \/ exists x, x ∈ l2 /\ D' !! x <> D !! x).
  Proof.
    intros Hf Ho0 Hl0 Hnd. induction l2 as [|v l2 IH]; intros l1 D ch E Ho Hl Hall Hsame; cbn [pass].
    - exists D, ch. split; [done|]. split; [done|]. split; [done|]. split; [intros x Hx; apply Hall; rewrite E, app_nil_r in Hx; done|]. split; [done|]. split; [intros v Hv; by apply elem_of_nil in Hv|]. split; [done|]. intros ->. by left.
    - assert (E' : rpo = (l1 ++ [v]) ++ l2) by (by rewrite <- app_assoc). assert (Hv : v ∈ rpo) by (rewrite E; apply elem_of_app; right; by left).
      assert (Hvn : v ∉ l1 /\ v ∉ l2). { rewrite E in Hnd. apply NoDup_app in Hnd as (_ & H1 & H2). apply NoDup_cons in H2 as [H2 _]. split; [|done]. intros Hx. apply (H1 v Hx). by left. }
      destruct (decide (v = entry)) as [->|Hne].
      + destruct (IH (l1 ++ [entry]) D ch E' Ho Hl) as (D' & ch' & EP & Ho' & Hl' & Ha' & Hs' & Hu' & Hf' & Ht').
        { intros x Hx. apply elem_of_app in Hx as [Hx|Hx]; [by apply Hall|]. apply elem_of_list_singleton in Hx as ->. rewrite (ok_entry D Ho). by eexists. }
        { intros x Hx. apply Hsame. intros Hx'. apply Hx, elem_of_app. by left. }
        exists D', ch'. split; [done|]. split; [done|]. split; [done|]. split; [done|]. split; [intros x Hx; apply Hs'; intros Hx'; apply Hx; by right|]. split.
        * intros v Hv' Hn. apply elem_of_cons in Hv' as [->|Hv']; [done | by apply Hu'].
        * split; [done|]. intros Ec. destruct (Ht' Ec) as [?|(x & Hx & Hd)]; [by left|]. right. exists x. split; [by right | done].
      + assert (Hp : exists p, p ∈ inedges v /\ is_Some (D !! p) /\ idx v < idx p). { destruct (Hfwd v Hv Hne) as (p & Hp & Hlt). exists p. split; [done|]. split; [|done]. apply Hall. eapply Hsplit; [exact E | by eapply in_src | done]. }
        assert (Hp' : exists p, p ∈ inedges v /\ is_Some (D !! p)) by (destruct Hp as (p & ? & ? & _); by exists p).
        destruct (new_idom_ok D fuel v Ho Hf Hp') as (n & En & Hsn & Hm). rewrite En. cbn [mbind option_bind].
        set (D1 := <[v := n]> D). assert (Ho1 : ok D1) by (apply update_ok; [done | done | done | done | exact (meets_idx D v n Ho Hp Hm)]). assert (Hl1 : low D1) by (apply update_low; [done|]; intros s0; exact (meets_low D v n s0 Ho Hl Hp' Hm)).
        assert (Hall1 : forall x, x ∈ l1 ++ [v] -> is_Some (D1 !! x)).
        { intros x Hx. unfold D1. destruct (decide (x = v)) as [->|Hxv]; [rewrite lookup_insert; by eexists|]. rewrite lookup_insert_ne by done. apply elem_of_app in Hx as [Hx|Hx]; [by apply Hall|]. by apply elem_of_list_singleton in Hx. }
        assert (Hsame1 : forall x, x ∉ l1 ++ [v] -> D1 !! x = D0 !! x).
        { intros x Hx. unfold D1. rewrite lookup_insert_ne; [apply Hsame; intros Hx'; apply Hx, elem_of_app; by left|]. intros ->. apply Hx, elem_of_app. right. by left. }
        assert (HD1 : D !! v = Some n -> D1 = D) by (intros Hd; unfold D1; by apply insert_id).
        assert (Hfin : forall D' , ok D' -> (forall x, x ∉ l2 -> D' !! x = D1 !! x) -> updated D0 D' v).
        { intros D' Ho' Hs'. exists n, D. split; [done|]. split; [rewrite (Hs' v (proj2 Hvn)); apply lookup_insert|]. split; [done|]. split.
          - intros x Hx Hlt. apply (Hsplit l1 v l2 x E Hx) in Hlt. rewrite Hs'; [unfold D1; rewrite lookup_insert_ne; [done|]; intros ->; by apply (proj1 Hvn)|]. intros Hx2. rewrite E in Hnd. apply NoDup_app in Hnd as (_ & H1 & _). apply (H1 x Hlt). by right.
          - intros x Hx Hle. apply Hsame. intros Hx1. apply (Hsplit l1 v l2 x E Hx) in Hx1. lia. }
        destruct (IH (l1 ++ [v]) D1 (if decide (D !! v = Some n) then ch else true) E' Ho1 Hl1 Hall1 Hsame1) as (D' & ch' & EP & Ho' & Hl' & Ha' & Hs' & Hu' & Hf' & Ht').
        exists D', ch'. split. { destruct (decide (D !! v = Some n)) as [Hd|Hd]; [rewrite (HD1 Hd) in EP; exact EP | exact EP]. }
        split; [done|]. split; [done|]. split; [done|]. split. { intros x Hx. rewrite Hs'; [|intros Hx'; apply Hx; by right]. unfold D1. rewrite lookup_insert_ne; [done|]. intros ->. apply Hx. by left. }
        split. { intros w Hw Hwe. apply elem_of_cons in Hw as [->|Hw]; [by apply Hfin | by apply Hu']. }
        split.
        * intros Ec. destruct (Hf' Ec) as [-> Ec']. destruct (decide (D !! v = Some n)) as [Hd|Hd]; [split; [by apply HD1 | done] | done].
        * intros Ec. destruct (Ht' Ec) as [Ec'|(x & Hx & Hd)].
          -- destruct (decide (D !! v = Some n)) as [Hd|Hd]; [by left|]. right. exists v. split; [by left|]. rewrite (Hs' v (proj2 Hvn)). unfold D1. rewrite lookup_insert. congruence.
          -- right. exists x. split; [by right|]. unfold D1 in Hd. rewrite lookup_insert_ne in Hd; [done|]. intros ->. by apply (proj2 Hvn).
  Qed.
  (** the chains above i, when D and D' agree there *)
  Lemma anc_agree D D' i : ok D -> (forall x, x ∈ rpo -> i < idx x -> D !! x = D' !! x) -> forall a x, x ∈ rpo -> i < idx x -> anc D a x -> anc D' a x.
  Proof.
    intros Ho He a x Hx Hi H. induction H as [|a x d Hd H IH]; [constructor|]. eapply anc_up; [rewrite <- He; done|]. destruct (decide (x = entry)) as [->|Hxe].
    - rewrite (ok_entry D Ho) in Hd. injection Hd as <-. by apply IH.
    - pose proof (ok_idx D Ho _ _ Hd Hxe). apply IH; [by eapply next_node | lia].
  Qed.
  (** what is above the candidate of x is above all of its predecessors that come earlier *)
  Lemma passed_fwd D D' x w c : passed D D' -> x ∈ rpo -> x <> entry -> w ∈ inedges x -> idx x < idx w -> anc D' c x -> c <> x -> anc D' c w.
  Proof.
    intros Hp Hx Hxe Hw Hlt Hc Hn. destruct (ps_step _ _ Hp x Hx Hxe) as (n & Dm & Hom & Hd & [H1 _] & Ha & _). inversion Hc as [|c' x' d Hd' Hc']; subst; [done|]. rewrite Hd in Hd'. injection Hd' as <-.
    eapply anc_trans; [exact Hc'|]. apply (anc_agree Dm D' (idx x) Hom Ha); [by eapply in_src | done|]. apply H1; [done|]. rewrite Ha; [|by eapply in_src | done]. apply (ps_all _ _ Hp). by eapply in_src.
  Qed.
  Lemma between D0 D1 D2 y c : passed D0 D1 -> passed D1 D2 -> forall k p, M - idx p < k -> p ∈ rpo -> anc D1 y p -> anc D2 c p -> idx y <= idx c -> anc D2 c y.
  Proof.
    intros P1 P2. induction k as [|k IH]; intros p Hk Hp Hy Hc Hle; [lia|]. destruct (decide (y = p)) as [->|Hne]; [done|]. destruct (decide (p = entry)) as [->|Hpe]; [by apply (anc_entry D1 y (ps_ok _ _ P1)) in Hy|].
    destruct (Hfwd p Hp Hpe) as (q & Hq & Hlt). pose proof (in_src _ _ Hq) as Hqn. pose proof (HM _ Hqn). assert (Hcp : c <> p). { intros ->. destruct (anc_idx D1 y p (ps_ok _ _ P1) Hy) as [->|]; [done | lia]. }
    apply (IH q); [lia | done | eapply (passed_fwd D0 D1 p); done | eapply (passed_fwd D1 D2 p); done | done].
  Qed.
  Definition shrinks (D D' : gmap nat nat) : Prop := forall a x, x ∈ rpo -> anc D' a x -> anc D a x.
  Definition init : gmap nat nat := {[entry := entry]}.
  Lemma init_ok : ok init.
  Proof.
    assert (H : forall x d, init !! x = Some d -> x = entry /\ d = entry) by (intros x d H; unfold init in H; by apply lookup_singleton_Some in H as [<- <-]).
    constructor; [apply lookup_singleton | | |]; intros x d Hx; apply H in Hx as [-> ->]; [done | exists entry; apply lookup_singleton | done].
  Qed.
  Lemma init_low : low init.
  Proof. intros x d s Hx Hd. unfold init in Hd. apply lookup_singleton_Some in Hd as [<- _]. done. Qed.
  Lemma shrink_next D0 D1 D2 : passed D0 D1 -> passed D1 D2 -> D0 = init \/ (exists Dp, passed Dp D0 /\ shrinks D0 D1) -> shrinks D1 D2.
  Proof.
    intros P1 P2 Hprev. assert (H : forall k v, M - idx v < k -> v ∈ rpo -> forall a, anc D2 a v -> anc D1 a v).
    { induction k as [|k IH]; intros v Hk Hv a Ha; [lia|]. destruct (decide (a = v)) as [->|Hav]; [constructor|]. destruct (decide (v = entry)) as [->|Hve]; [by apply (anc_entry D2 a (ps_ok _ _ P2)) in Ha|].
      destruct (ps_step _ _ P2 v Hv Hve) as (c & Dm2 & Ho2 & Hd2 & [M1 M2] & Hup2 & Hdn2). destruct (ps_step _ _ P1 v Hv Hve) as (n1 & Dm1 & Ho1 & Hd1 & [N1 N2] & Hup1 & Hdn1).
      inversion Ha as [|a' v' c' Hc' Hac]; subst; [done|]. rewrite Hd2 in Hc'. injection Hc' as <-. pose proof (ok_idx D2 (ps_ok _ _ P2) _ _ Hd2 Hve) as Hlt. pose proof (next_node D2 _ _ (ps_ok _ _ P2) Hd2) as Hcn. pose proof (HM _ Hcn) as HcM.
      apply (anc_trans D1 a c v); [apply IH; [lia | done | done]|]. clear a Ha Hav Hac. eapply anc_up; [exact Hd1|].
      pose proof (ok_idx D1 (ps_ok _ _ P1) _ _ Hd1 Hve) as Hlt1. pose proof (next_node D1 _ _ (ps_ok _ _ P1) Hd1) as Hn1n.
      apply (anc_agree Dm1 D1 (idx v) Ho1 Hup1); [done | done|]. apply N2. intros p Hp Hsp. pose proof (in_src _ _ Hp) as Hpn.
      assert (Hs2 : is_Some (Dm2 !! p)). { destruct (decide (idx v < idx p)) as [L|L]; [rewrite Hup2; [by apply (ps_all _ _ P2)|done..] | rewrite Hdn2; [by apply (ps_all _ _ P1) | done | lia]]. }
      specialize (M1 p Hp Hs2). destruct (decide (idx v < idx p)) as [L|L].
      - pose proof (HM _ Hpn). apply (anc_agree D1 Dm1 (idx v) (ps_ok _ _ P1)); [intros x Hx Hxi; symmetry; by apply Hup1 | done | done|]. apply IH; [lia | done|]. by apply (anc_agree Dm2 D2 (idx v) Ho2 Hup2).
      - destruct Hprev as [->|(Dp & P0 & Hshr)].
        { exfalso. rewrite Hdn1 in Hsp; [|done|lia]. destruct Hsp as [e He]. unfold init in He. apply lookup_singleton_Some in He as [<- _]. pose proof (Htop v Hv Hve). lia. }
        assert (Q : forall a q, anc Dm2 a q -> q ∈ rpo -> anc D1 a q).
        { induction 1 as [|a x d Hd Hcq IHq]; intros Hq; [constructor|]. destruct (decide (idx v < idx x)) as [L'|L'].
          - pose proof (HM _ Hq). apply IH; [lia | done|]. apply (anc_agree Dm2 D2 (idx v) Ho2 Hup2); [done | done|]. by eapply anc_up.
          - eapply anc_up; [rewrite <- Hdn2; [exact Hd | done | lia]|]. apply IHq. exact (next_node Dm2 _ _ Ho2 Hd). }
        assert (C1 : anc D1 c p) by (by apply Q). assert (C0 : anc D0 c p) by (by apply Hshr).
        assert (W : forall a q, anc D0 a q -> anc D1 a p -> q ∈ rpo -> anc D0 q p -> idx q <= idx v -> anc Dm1 a q).
        { induction 1 as [x|a x d Hd Hcq IHq]; intros Ca Hq Hqp Hqv; [constructor|].
          eapply anc_up; [rewrite Hdn1; [exact Hd | done | done]|]. assert (Hdp : anc D0 d p) by (eapply anc_trans; [eapply anc_up; [exact Hd | constructor] | done]). pose proof (next_node D0 _ _ (ps_ok _ _ P0) Hd) as Hdn.
          destruct (decide (idx d <= idx v)) as [L'|L']; [by apply IHq|]. apply (anc_agree D1 Dm1 (idx v) (ps_ok _ _ P1)); [intros y Hy Hyi; symmetry; by apply Hup1 | done | lia|].
          apply (between Dp D0 D1 d a P0 P1 (S (M - idx p)) p); [lia | done | done | done|]. by apply (anc_le D0 _ _ (ps_ok _ _ P0)). }
        apply W; [done | done | done | constructor | lia]. }
    intros a x Hx Ha. apply (H (S (M - idx x)) x); [lia | done | done].
  Qed.
  (** termination *)
  Definition height (D : gmap nat nat) (x : nat) : nat := S M - idx (default entry (D !! x)).
  Definition measure (D : gmap nat nat) : nat := sum_list_with (height D) rpo.
  Lemma height_bound D x : height D x <= S M.
  Proof. unfold height. lia. Qed.
  Lemma measure_bound D : measure D <= length rpo * S M.
  Proof. unfold measure. assert (H : forall l, sum_list_with (height D) l <= length l * S M); [|apply H]. induction l as [|x l IH]; [done|]. pose proof (height_bound D x). cbn [sum_list_with length]. change (S (length l) * S M) with (S M + length l * S M). lia. Qed.
  Lemma sum_le (f h : nat -> nat) l : (forall x, x ∈ l -> f x <= h x) -> sum_list_with f l <= sum_list_with h l.
  Proof. induction l as [|x l IH]; intros H; [done|]. cbn [sum_list_with]. pose proof (H x (elem_of_list_here _ _)). assert (sum_list_with f l <= sum_list_with h l) by (apply IH; intros y Hy; apply H; by right). lia. Qed.
  Lemma sum_lt (f h : nat -> nat) l y : (forall x, x ∈ l -> f x <= h x) -> y ∈ l -> f y < h y -> sum_list_with f l < sum_list_with h l.
  Proof.
    induction l as [|x l IH]; intros H Hy Hlt; [by apply elem_of_nil in Hy|]. cbn [sum_list_with]. pose proof (H x (elem_of_list_here _ _)). assert (Hl : forall z, z ∈ l -> f z <= h z) by (intros z Hz; apply H; by right). apply elem_of_cons in Hy as [->|Hy].
    - pose proof (sum_le f h l Hl). lia.
    - pose proof (IH Hl Hy Hlt). lia.
  Qed.
  Lemma shrink_height D D' x : ok D -> ok D' -> (forall y, y ∈ rpo -> is_Some (D !! y)) -> (forall y, y ∈ rpo -> is_Some (D' !! y)) -> shrinks D D' -> x ∈ rpo -> height D' x <= height D x /\ (D' !! x <> D !! x -> height D' x < height D x).
  Proof.
    intros Ho Ho' Ha Ha' Hs Hx. destruct (Ha x Hx) as [d Hd]. destruct (Ha' x Hx) as [d' Hd']. destruct (decide (x = entry)) as [->|Hxe].
    { rewrite (ok_entry D Ho), (ok_entry D' Ho') in *. unfold height. rewrite (ok_entry D Ho), (ok_entry D' Ho'). done. }
    assert (H : anc D d' x) by (apply Hs; [done|]; eapply anc_up; [done | constructor]). pose proof (ok_idx D' Ho' _ _ Hd' Hxe) as L. inversion H as [|a y e He Hde]; subst; [lia|]. rewrite Hd in He. injection He as <-.
    pose proof (HM _ (next_node D _ _ Ho Hd)). pose proof (HM _ (next_node D' _ _ Ho' Hd')). unfold height. rewrite Hd, Hd'. cbn [from_option id]. destruct (anc_idx D _ _ Ho Hde) as [->|L']; [split; [done | congruence]|]. split; [lia|]. intros _. lia.
  Qed.
  Definition state (D : gmap nat nat) : Prop := exists Dp, passed Dp D /\ (Dp = init \/ exists Dpp, passed Dpp Dp /\ shrinks Dp D).
  Lemma passed_changed (D D' : gmap nat nat) (ch : bool) : (ch = true -> false = true \/ exists x, x ∈ rpo /\ D' !! x <> D !! x) -> ch = true -> exists x, x ∈ rpo /\ D' !! x <> D !! x.
  Proof. intros H E. destruct (H E) as [?|?]; done. Qed.
  Lemma run_pass D m : NoDup rpo -> M + M < m -> ok D -> low D -> exists D' ch, pass inedges m ix rpo D false = Some (D', ch) /\ passed D D' /\ (ch = false -> D' = D) /\ (ch = true -> exists x, x ∈ rpo /\ D' !! x <> D !! x).
  Proof.
    intros Hnd Hm Ho Hl. destruct (pass_ok m D Hm Ho Hl Hnd rpo [] D false eq_refl Ho Hl) as (D' & ch & E & H1 & H2 & H3 & _ & H5 & H6 & H7); [intros x Hx; by apply elem_of_nil in Hx | done|].
    exists D', ch. split; [done|]. split; [by constructor|]. split; [intros Ec; by destruct (H6 Ec)|]. by apply passed_changed.
  Qed.
  Lemma loop_state m : NoDup rpo -> M + M < m -> forall fuel D, state D -> measure D < fuel -> exists D', loop inedges fuel m ix rpo D = Some D' /\ passed D' D'.
  Proof.
    intros Hnd Hm. induction fuel as [|fuel IH]; intros D (Dp & P & Hprev) Hf; [lia|]. cbn [loop]. destruct (run_pass D m Hnd Hm (ps_ok _ _ P) (ps_low _ _ P)) as (D' & ch & E & P' & H1 & H2). rewrite E. cbn [mbind option_bind].
    destruct ch; [|exists D'; split; [done|]; rewrite (H1 eq_refl) in P' |- *; done]. assert (Hs : shrinks D D') by (by apply (shrink_next Dp D D')). apply IH.
    - exists D. split; [done|]. right. by exists Dp.
    - destruct (H2 eq_refl) as (x & Hx & Hd). assert (Hlt : measure D' < measure D); [|lia]. apply (sum_lt _ _ _ x); [|done|].
      + intros y Hy. by apply (shrink_height D D' y (ps_ok _ _ P) (ps_ok _ _ P') (ps_all _ _ P) (ps_all _ _ P')).
      + by apply (shrink_height D D' x (ps_ok _ _ P) (ps_ok _ _ P') (ps_all _ _ P) (ps_all _ _ P')).
  Qed.
  Lemma loop_ok m fuel : NoDup rpo -> M + M < m -> 2 + length rpo * S M <= fuel -> exists D, loop inedges fuel m ix rpo init = Some D /\ passed D D.
  Proof.
    intros Hnd Hm Hf. destruct fuel as [|fuel]; [lia|]. cbn [loop]. destruct (run_pass init m Hnd Hm init_ok init_low) as (D & ch & E & P & H1 & _). rewrite E. cbn [mbind option_bind].
    destruct ch; [|exists D; split; [done|]; rewrite (H1 eq_refl) in P |- *; done]. apply loop_state; [done | done | exists init; split; [done | by left]|]. pose proof (measure_bound D). lia.
  Qed.
  (** the candidates when nothing changes any more *)
  Lemma fix_preds D v d p : passed D D -> v ∈ rpo -> v <> entry -> D !! v = Some d -> p ∈ inedges v -> anc D d p.
  Proof.
    intros P Hv Hve Hd Hp. destruct (ps_step _ _ P v Hv Hve) as (n & Dm & Ho & Hn & [H1 _] & Hup & Hdn). rewrite Hd in Hn. injection Hn as <-. pose proof (in_src _ _ Hp) as Hpn.
    assert (He : forall x, x ∈ rpo -> Dm !! x = D !! x). { intros x Hx. destruct (decide (idx v < idx x)); [by apply Hup | apply Hdn; [done | lia]]. }
    assert (Ha : anc Dm d p) by (apply H1; [done|]; rewrite He by done; by apply (ps_all _ _ P)).
    assert (Q : forall a x, anc Dm a x -> x ∈ rpo -> anc D a x). { induction 1 as [|a x e Hx Hax IH]; intros Hxn; [constructor|]. eapply anc_up; [rewrite <- He; done|]. apply IH. exact (next_node Dm _ _ Ho Hx). }
    by apply Q.
  Qed.
  Lemma fix_sound D : passed D D -> forall l v, walk g l v -> v ∈ rpo -> forall a, anc D a v -> a ∈ l.
  Proof.
    intros P l v H. induction H as [|l p v Hw IH He]; intros Hv a Ha; [apply (anc_entry D a (ps_ok _ _ P)) in Ha as ->; by left|]. apply elem_of_app. pose proof (Hsrc _ _ He) as Hpn.
    destruct (decide (v = entry)) as [->|Hve]; [right; apply (anc_entry D a (ps_ok _ _ P)) in Ha as ->; by left|].
    inversion Ha as [|a' v' d Hd Ha']; subst; [right; by left|]. left. apply IH; [done|]. eapply anc_trans; [exact Ha'|]. eapply (fix_preds D v); [done..|]. by apply Hedge.
  Qed.
  Lemma fix_dominates D d v : passed D D -> v ∈ rpo -> dominates g d v <-> anc D d v.
  Proof.
    intros P Hv. split.
    - intros H. apply (dom_anc D d (ps_ok _ _ P) (ps_low _ _ P) (S (M - idx v))); [lia | by apply (ps_all _ _ P) | done].
    - intros H l Hl. by eapply fix_sound.
  Qed.
  Lemma fix_idom D v d : passed D D -> v ∈ rpo -> v <> entry -> D !! v = Some d -> idom g d v.
  Proof.
    intros P Hv Hve Hd. pose proof (ok_idx D (ps_ok _ _ P) _ _ Hd Hve) as Hlt. split; [split|].
    - intros ->. lia.
    - apply (fix_dominates D d v P Hv). eapply anc_up; [done | constructor].
    - intros s Hs H. by eapply (ps_low _ _ P).
  Qed.
End Iteration.
