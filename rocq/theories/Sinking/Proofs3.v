(** The loop for a gamma node, and the visit of a region. *)
From stdpp Require Import base list gmap.
From Coq Require Import ZArith Lia.
From Verif.LocalRegion Require Import Model Spec Facts.
From Verif.Unswitch Require Import Model Spec Proofs1 Proofs3 Proofs4 Proofs5 Proofs6.
From Verif.Sinking Require Import Model Spec Proofs1 Proofs2.
Open Scope nat_scope.

Lemma perm_drop {A} (l : list A) i x k : l !! i = Some x -> l ≡ₚ x :: k -> delete i l ≡ₚ k.
Proof. intros Hi P. pose proof (delete_Permutation _ _ _ Hi) as Q. rewrite P in Q at 1. apply Permutation_cons_inv in Q. by symmetry. Qed.
Lemma alter_insert {A} (f : A -> A) : forall (l : list A) i x, l !! i = Some x -> alter f i l = <[i := f x]> l.
Proof. induction l as [|a l IH]; intros [|i] x H; try done; cbn in H. - by injection H as ->. - cbn. f_equal. by apply IH. Qed.
Section Pass.
  Context (other : nat -> list val -> option (list val)) (content : val -> val).
  Local Notation holds := (holds other content).
  Local Notation hold := (hold other content).
  Local Notation same := (same other content).
  (** what is said about the bodies of visited nodes *)
  Context (Sk : region -> Prop).
  Definition before (r : region) (g : nat) : Prop := forall j m, j < g -> rnodes r !! j = Some m -> settled m (delete j (rnodes r)) (rres r) /\ forall b, b ∈ bodies m -> Sk b.
  Definition kept (r : region) (g : nat) (r' : region) (g' : nat) : Prop :=
    good r' /\ same r r' /\ rargs r' = rargs r /\ rres r' = rres r /\ extent r' <= extent r /\ (forall x, x ∈ rargs r -> uses r x <-> uses r' x) /\ (before r g -> before r' g') /\ length (rnodes r') + g <= length (rnodes r) + g' /\ (rnodes r = [] <-> rnodes r' = []).
  Lemma kept_refl r g : good r -> kept r g r g.
  Proof. intros H. repeat (split; [done|]). done. Qed.
  Lemma kept_trans r1 g1 r2 g2 r3 g3 : kept r1 g1 r2 g2 -> kept r2 g2 r3 g3 -> kept r1 g1 r3 g3.
  Proof.
    intros (A1 & A2 & A3 & A4 & A5 & A6 & A7 & A8 & A9) (B1 & B2 & B3 & B4 & B5 & B6 & B7 & B8 & B9). split; [done|]. split; [intros v w; by rewrite (A2 v w)|]. split; [congruence|]. split; [congruence|]. split; [lia|]. split; [|split; [auto|split; [lia|]]].
    - intros x Hx. rewrite (A6 x Hx). apply B6. by rewrite A3.
    - by rewrite A9.
  Qed.
  Lemma good_names r : good r -> NoDup (names r).
  Proof. by intros [? ((H & _) & _) _]. Qed.
  Lemma names_outs r : NoDup (names r) -> NoDup (all_outs (rnodes r)).
  Proof. intros H. by apply NoDup_app in H as (_ & _ & H). Qed.
  Lemma nouts_nodup r n : NoDup (names r) -> n ∈ rnodes r -> NoDup (nouts n).
  Proof. intros H Hn. apply names_outs in H. apply elem_of_Permutation in Hn as [l P]. rewrite (all_outs_perm _ _ P), all_outs_cons in H. by apply NoDup_app in H as (H & _). Qed.
  Lemma pull_good r n G rest r' : good r -> pullable r n G rest -> rargs r' = rargs r -> rres r' = rres r -> rnodes r' ≡ₚ pull_node n G :: rest -> good r' /\ same r r'.
  Proof.
    intros Hg Hp Ea Er P2. destruct Hg as [r Hr Hb]. destruct r as [A nodes res], r' as [A' nodes' res']. cbn [rargs rres rnodes] in Ea, Er, P2. subst A' res'. destruct (pull_step other content A nodes res n G rest nodes' Hr Hp P2) as [H1 H2]. split; [|done].
    constructor; [done|]. intros m b Hm Hbm. cbn [rnodes] in Hm. rewrite P2 in Hm. pose proof Hp as (subs & q & es & outs & EG & P1 & _). cbn [rnodes] in P1, Hb. apply elem_of_cons in Hm as [->|Hm]; [|apply (Hb m); [rewrite P1; right; by right | done]].
    rewrite EG in Hbm. cbn [pull_node bodies nkind] in Hbm. apply elem_of_list_fmap in Hbm as (s & -> & Hs). assert (HG : G ∈ nodes) by (rewrite P1; by left). assert (Hn : n ∈ nodes) by (rewrite P1; right; by left).
    assert (Hgs : good s). { apply (Hb G); [done|]. by rewrite EG. } destruct Hr as (Hw & _ & Hwg). cbn [rnodes] in Hwg. pose proof (Hwg G HG) as HGw. rewrite EG in HGw. destruct HGw as [_ HGw]. destruct (HGw s Hs) as (Ws & L1 & L2). cbn [nins nouts length] in L1, L2.
    destruct Hgs as [s Hgs Hsb]. constructor.
    - apply (pull_into_good other); [done | done| |by apply Hwg]. apply (nouts_nodup (Region A nodes res)); [by destruct Hw | done].
    - intros m b Hm Hbm. unfold pull_into in Hm. cbn [rnodes] in Hm. apply elem_of_cons in Hm as [->|Hm]; [by apply (Hb n)|]. apply elem_of_list_fmap in Hm as (m0 & -> & Hm). by apply (Hsb m0).
  Qed.
  Lemma pull_kept r g i n G rest : good r -> rnodes r !! g = Some G -> rnodes r !! i = Some n -> i <> g -> pullable r n G rest -> (forall z, delete i (<[g := z]> (rnodes r)) ≡ₚ z :: rest) ->
    kept r g (pull_at r g i n G) (if decide (i < g) then pred g else g) /\ rnodes (pull_at r g i n G) !! (if decide (i < g) then pred g else g) = Some (pull_node n G).
  Proof.
    intros Hg Hgi Hi Hne Hp Hz. pose proof (Hz (pull_node n G)) as P2. assert (Hlt : g < length (rnodes r)) by (by eapply lookup_lt_Some). assert (Hlt' : i < length (rnodes r)) by (by eapply lookup_lt_Some). pose proof (good_names _ Hg) as Hnd.
    pose proof Hp as (subs & q & es & outs & EG & P1 & (x0 & Hx0 & _) & _ & Hsucc).
    assert (Hlk : rnodes (pull_at r g i n G) !! (if decide (i < g) then pred g else g) = Some (pull_node n G)).
    { unfold pull_at. cbn [rnodes]. destruct (decide (i < g)) as [Hl|Hl].
      - rewrite lookup_delete_ge by lia. replace (S (pred g)) with g by lia. by apply list_lookup_insert.
      - rewrite lookup_delete_lt by lia. by apply list_lookup_insert. }
    split; [|done]. destruct (pull_good r n G rest (pull_at r g i n G) Hg Hp eq_refl eq_refl P2) as [H1 H2]. split; [done|]. split; [done|]. split; [done|]. split; [done|]. split; [by eapply pull_extent|]. split; [|split; [|split]].
    - intros x Hx. apply (pull_uses r n G rest (pull_at r g i n G) x Hp P2); [done|]. intros Hc. unfold names in Hnd. apply NoDup_app in Hnd as (_ & Hd & _). apply (Hd x Hx). apply elem_all_outs. exists n. split; [by eapply elem_of_list_lookup_2 | done].
    - intros Hb j' m Hj' Hm. assert (Hj : exists j, j < g /\ j <> i /\ rnodes r !! j = Some m).
      { unfold pull_at in Hm. cbn [rnodes] in Hm. destruct (decide (j' < i)) as [Hl|Hl].
        - rewrite lookup_delete_lt in Hm by done. exists j'. assert (j' < g) by (destruct (decide (i < g)); lia). rewrite list_lookup_insert_ne in Hm by lia. split; [lia|]. split; [lia | done].
        - rewrite lookup_delete_ge in Hm by lia. exists (S j'). destruct (decide (i < g)); [|lia]. rewrite list_lookup_insert_ne in Hm by lia. split; [lia|]. split; [lia | done]. }
      destruct Hj as (j & Hjg & Hji & Hj). destruct (Hb j m Hjg Hj) as [Hs Hbm]. split; [|done]. change (rres (pull_at r g i n G)) with (rres r).
      assert (Hmr : m ∈ rest).
      { assert (Hmd : m ∈ n :: rest). { rewrite <-(perm_drop _ _ _ _ Hgi P1). eapply delete_in; [exact Hj | lia]. }
        apply elem_of_cons in Hmd as [->|Hmd]; [|done]. exfalso. apply Hji. eapply unique_owner; [by apply names_outs | exact Hj | exact Hi | exact Hx0 | exact Hx0]. }
      apply elem_of_Permutation in Hmr as [rest0 P0]. eapply settled_perm; [|apply (settled_pull r n G rest m rest0 Hnd Hp P0)].
      + symmetry. apply (perm_drop _ _ _ _ Hm). unfold pull_at. cbn [rnodes]. by rewrite P2, P0, perm_swap.
      + eapply settled_perm; [|exact Hs]. apply (perm_drop _ _ _ _ Hj). rewrite P1, P0. by rewrite (perm_swap m n), (perm_swap m G).
    - unfold pull_at. cbn [rnodes]. rewrite length_delete by (rewrite list_lookup_insert_ne by congruence; by eexists). rewrite insert_length. destruct (decide (i < g)); lia.
    - split; intros E; [by rewrite E in Hgi | by rewrite E in Hlk].
  Qed.
  Lemma sinkable_ok r g subs q es outs x i : good r -> rnodes r !! g = Some (Node (KGamma subs) (q :: es) outs) -> x ∈ es -> sinkable r g q es subs x = Some i ->
    exists n rest, rnodes r !! i = Some n /\ i <> g /\ pullable r n (Node (KGamma subs) (q :: es) outs) rest /\ forall z, delete i (<[g := z]> (rnodes r)) ≡ₚ z :: rest.
  Proof.
    intros Hg Hgi Hx. unfold sinkable. destruct (owner_index (rnodes r) x) as [i'|] eqn:Eo; [|done]. cbn [mbind option_bind]. destruct (rnodes r !! i') as [n|] eqn:Ei; [|done]. cbn [mbind option_bind]. destruct (negb _ && _ && _) eqn:Eb; [|done]. intros [= ->].
    apply andb_true_iff in Eb as [Eb _]. apply andb_true_iff in Eb as [Eq Ess]. apply negb_true_iff, bool_decide_eq_false in Eq. apply owner_index_ok in Eo as (n' & Hn' & Hxn). rewrite Ei in Hn'. injection Hn' as <-.
    assert (Hne : i <> g). { intros ->. rewrite Hgi in Ei. injection Ei as <-. destruct Hg as [r (_ & (rank & R & _) & _) _]. assert (rank x < rank x); [|lia]. apply (R (Node (KGamma subs) (q :: es) outs)); [by eapply elem_of_list_lookup_2 | by right | done]. }
    destruct (two_perm _ _ _ _ _ Hgi Ei ltac:(congruence)) as (rest & P1 & P2). exists n, rest. split; [done|]. split; [done|]. split; [|done]. exists subs, q, es, outs. split; [done|]. split; [done|]. split; [by exists x|]. split.
    - intros Hq. apply Eq. eapply owner_index_in; [apply names_outs; by apply good_names | exact Ei | done].
    - apply (single_successor_iff r i g n Ei) with (x := _) in Ess as Hs || idtac. intros y Hy. destruct (proj1 (single_successor_iff r i g n Ei) Ess y Hy) as [H1 H2]. split; [done|]. intros m Hm Hc.
      assert (Hmd : m ∈ delete g (rnodes r)). { rewrite (perm_drop _ _ _ _ Hgi P1). by right. }
      apply elem_delete in Hmd as (j & Hj & Hjm). apply Hj. by eapply H2.
  Qed.
  Lemma not_sinkable r g subs q es outs : good r -> rnodes r !! g = Some (Node (KGamma subs) (q :: es) outs) -> head (omap (sinkable r g q es subs) es) = None -> settled (Node (KGamma subs) (q :: es) outs) (delete g (rnodes r)) (rres r).
  Proof.
    intros Hg Hgi Hnone subs' q' es' outs' E. injection E as <- <- <- <-. right. intros n Hn ((x & Hxn & Hxe) & Hq & Ho) (k & s & Hk & Hns & Hu).
    apply elem_delete in Hn as (i & Hne & Hi). pose proof (names_outs _ (good_names _ Hg)) as Hnd. assert (Hs : sinkable r g q es subs x = Some i).
    { unfold sinkable. rewrite (owner_index_in _ _ _ _ Hnd Hi Hxn). cbn [mbind option_bind]. rewrite Hi. cbn [mbind option_bind]. destruct (negb _ && _ && _) eqn:Eb; [done|]. exfalso. apply andb_false_iff in Eb as [Eb|Eb]; [apply andb_false_iff in Eb as [Eb|Eb]|].
      - apply negb_false_iff, bool_decide_eq_true in Eb. apply Hq. apply owner_index_ok in Eb as (n' & Hn' & Hqn). congruence.
      - assert (Ht : single_successor r i g = true); [|congruence]. apply (single_successor_iff r i g n Hi). intros y Hy. destruct (Ho y Hy) as [H1 H2]. split; [done|]. intros j m Hj Hym. destruct (decide (j = g)) as [|Hjg]; [done|]. exfalso. apply (H2 m); [|done]. by eapply delete_in.
      - apply bool_decide_eq_false in Eb. apply Eb. unfold used_in. apply (filter_one _ subs k s Hk); [by apply needs_ok|]. intros j y Hj Hy. apply needs_ok in Hy. by eapply Hu. }
    assert (Hin : i ∈ omap (sinkable r g q es subs) es) by (apply elem_of_list_omap; by exists x). destruct (omap _ es); [by apply elem_of_nil in Hin | done].
  Qed.
  Lemma sink_loop_ok fuel : forall r g subs q es outs, good r -> rnodes r !! g = Some (Node (KGamma subs) (q :: es) outs) -> length (rnodes r) <= fuel ->
    let res := sink_loop fuel r g in kept r g res.1 res.2 /\ exists G, rnodes res.1 !! res.2 = Some G /\ settled G (delete res.2 (rnodes res.1)) (rres res.1).
  Proof.
    induction fuel as [|fuel IH]; intros r g subs q es outs Hg Hgi Hl; cbn [sink_loop].
    - apply lookup_lt_Some in Hgi. lia.
    - rewrite Hgi. destruct (head (omap _ es)) as [i|] eqn:Eh.
      + assert (Hin : i ∈ omap (sinkable r g q es subs) es) by (destruct (omap _ es); [done|]; cbn in Eh; injection Eh as ->; by left). apply elem_of_list_omap in Hin as (x & Hx & Hs).
        destruct (sinkable_ok r g subs q es outs x i Hg Hgi Hx Hs) as (n & rest & Hi & Hne & Hp & Hz). rewrite Hi. destruct (pull_kept r g i n _ rest Hg Hgi Hi Hne Hp Hz) as [K1 K2].
        pose proof K1 as (Hg' & _). cbn [pull_node] in K2. destruct (IH _ _ _ _ _ _ Hg' K2) as [K3 K4].
        * unfold pull_at. cbn [rnodes]. rewrite length_delete by (rewrite list_lookup_insert_ne by congruence; by eexists). rewrite insert_length. lia.
        * split; [by eapply kept_trans | done].
      + cbn. split; [by apply kept_refl|]. exists (Node (KGamma subs) (q :: es) outs). split; [done|]. by apply not_sinkable.
  Qed.
  Lemma pull_gamma_ok r g : good r -> let res := pull_gamma r g in kept r g res.1 res.2 /\ forall G, rnodes res.1 !! res.2 = Some G -> settled G (delete res.2 (rnodes res.1)) (rres res.1).
  Proof.
    intros Hg. unfold pull_gamma. destruct (rnodes r !! g) as [[[o|subs|b] ins outs]|] eqn:Egi; try (cbn; split; [by apply kept_refl|]; intros G HG; rewrite Egi in HG; first [done | injection HG as <-; by intros ? ? ? ? ?]).
    destruct (is_select subs) eqn:Es.
    - cbn. split; [by apply kept_refl|]. intros G HG. rewrite Egi in HG. injection HG as <-. intros subs' q es outs' E. injection E as <- -> <-. left. apply andb_true_iff in Es as [E1 E2]. apply bool_decide_eq_true in E1. split; [done|]. rewrite forallb_forall in E2. intros s Hs. specialize (E2 s (proj1 (elem_of_list_In _ _) Hs)). by apply bool_decide_eq_true in E2.
    - destruct ins as [|q es].
      + exfalso. destruct Hg as [r (_ & _ & Hw) _]. destruct (Hw (Node (KGamma subs) [] outs)) as [H0 _]; [by eapply elem_of_list_lookup_2|]. cbn in H0. lia.
      + destruct (sink_loop_ok (length (rnodes r)) r g subs q es outs Hg Egi ltac:(lia)) as [K (G & HG & Hs)]. split; [done|]. intros G' HG'. rewrite HG in HG'. by injection HG' as <-.
  Qed.

  (** a pass over the bodies *)
  Definition body_ok (f : region -> region) (b : region) : Prop :=
    good (f b) /\ same b (f b) /\ rargs (f b) = rargs b /\ rres (f b) = rres b /\ extent (f b) <= extent b /\ (forall x, x ∈ rargs b -> uses b x <-> uses (f b) x) /\ (rnodes b = [] <-> rnodes (f b) = []).
  Lemma map_bodies_parts f n : nins (map_bodies f n) = nins n /\ nouts (map_bodies f n) = nouts n /\ bodies (map_bodies f n) = map f (bodies n).
  Proof. by destruct n as [[o|subs|b] ins outs]. Qed.
  Lemma map_bodies_holds f n rho : (forall b, b ∈ bodies n -> body_ok f b) -> holds rho n <-> holds rho (map_bodies f n).
  Proof.
    destruct n as [[o|subs|b] ins outs]; intros H; cbn [map_bodies]; [done| |].
    - unfold Spec.holds. cbn [nkind nins nouts]. rewrite !gamma_inv. cbn [bodies nkind] in H. split.
      + intros (k & s & vs & E & Hk & Hr). exists k, (f s), vs. split; [done|]. split; [change (map f subs) with (f <$> subs); by rewrite list_lookup_fmap, Hk|]. destruct (H s) as (_ & Hs & _); [by eapply elem_of_list_lookup_2|]. by apply Hs.
      + intros (k & s' & vs & E & Hk & Hr). change (map f subs) with (f <$> subs) in Hk. apply list_lookup_fmap_inv in Hk as (s & -> & Hk). exists k, s, vs. split; [done|]. split; [done|]. destruct (H s) as (_ & Hs & _); [by eapply elem_of_list_lookup_2|]. by apply Hs.
    - destruct (H b) as (_ & Hs & _); [by left|]. assert (Hs' : same (f b) b) by (intros v w; by rewrite (Hs v w)). unfold Spec.holds. cbn [nkind nins nouts]. split; intros Hh; inversion Hh as [| |b0 vs0 ws0 Hl]; subst; constructor; by eapply loops_same.
  Qed.
  Lemma settled_map_other f G N rest res : settled G (N :: rest) res -> settled G (map_bodies f N :: rest) res.
  Proof.
    destruct (map_bodies_parts f N) as (E1 & E2 & _). intros H subs q es outs E. destruct (H subs q es outs E) as [H1|H1]; [by left|]. right. intros m Hm (Hx & Hq & Ho) Hex.
    assert (Hm0 : exists m0, m0 ∈ N :: rest /\ nouts m0 = nouts m). { apply elem_of_cons in Hm as [->|Hm]; [exists N; split; [by left | done] | exists m; split; [by right | done]]. } destruct Hm0 as (m0 & Hm0 & Eo).
    apply (H1 m0 Hm0).
    - unfold only_for. rewrite Eo. split; [done|]. split; [done|]. intros x Hxm. destruct (Ho x Hxm) as [H2 H3]. split; [done|]. intros m' Hm'. apply elem_of_cons in Hm' as [->|Hm']; [rewrite <-E1; apply H3; by left | apply H3; by right].
    - destruct Hex as (k & s & Hk & Hn & Hu). exists k, s. unfold needs in *. rewrite Eo. done.
  Qed.
  Lemma settled_map_self f G others res : (forall b, b ∈ bodies G -> body_ok f b) -> settled G others res -> settled (map_bodies f G) others res.
  Proof.
    intros Hb H. destruct G as [[o|subs|b] ins outs]; cbn [map_bodies]; [done| |done]. cbn [bodies nkind] in Hb. intros subs' q es outs' E. injection E as <- -> <-. destruct (H subs q es outs eq_refl) as [[H1 H2]|H1]; [left|right].
    - split; [by rewrite map_length|]. intros s Hs. apply elem_of_list_fmap in Hs as (t & -> & Ht). destruct (Hb t Ht) as (_ & _ & _ & _ & _ & _ & Hn). apply Hn. by apply H2.
    - intros n Hn Ho Hex. apply (H1 n Hn Ho). assert (Hneeds : forall s, s ∈ subs -> needs n es s <-> needs n es (f s)).
      { intros s Hs. destruct (Hb s Hs) as (_ & _ & Ea & _ & _ & Hu & _). unfold needs. rewrite Ea. split; intros (j & x & a & F1 & F2 & F3 & F4); exists j, x, a; (split; [done|]); (split; [done|]); (split; [done|]); apply (Hu a); try done; by eapply elem_of_list_lookup_2. }
      destruct Hex as (k & s' & Hk & Hns & Hu). change (map f subs) with (f <$> subs) in *. apply list_lookup_fmap_inv in Hk as (s & -> & Hk). exists k, s. split; [done|]. split; [apply (Hneeds s); [by eapply elem_of_list_lookup_2 | done]|].
      intros k' t Ht Hnt. apply (Hu k' (f t)); [by rewrite list_lookup_fmap, Ht|]. apply (Hneeds t); [by eapply elem_of_list_lookup_2 | done].
  Qed.
  Lemma weight_map f n : (forall b, b ∈ bodies n -> body_ok f b) -> weight (map_bodies f n) <= weight n.
  Proof.
    intros H. unfold weight. destruct (map_bodies_parts f n) as (_ & _ & ->). assert (foldr max 0 (map extent (map f (bodies n))) <= foldr max 0 (map extent (bodies n))); [|lia]. apply max_le. intros x Hx. apply elem_of_list_fmap in Hx as (s & -> & Hs). apply elem_of_list_fmap in Hs as (t & -> & Ht).
    destruct (H t Ht) as (_ & _ & _ & _ & Hle & _). etransitivity; [exact Hle|]. apply max_ge. apply elem_of_list_fmap. by exists t.
  Qed.
  Lemma map_kept f r i N : good r -> rnodes r !! i = Some N -> (forall b, b ∈ bodies N -> body_ok f b /\ Sk (f b)) -> settled N (delete i (rnodes r)) (rres r) -> kept r i (Region (rargs r) (alter (map_bodies f) i (rnodes r)) (rres r)) (S i).
  Proof.
    intros Hg Hi Hb Hset. assert (Hb' : forall b, b ∈ bodies N -> body_ok f b) by (intros b H; by apply Hb). destruct (map_bodies_parts f N) as (E1 & E2 & E3). assert (Hlt : i < length (rnodes r)) by (by eapply lookup_lt_Some).
    pose proof (delete_Permutation _ _ _ Hi) as P1. assert (P2 : alter (map_bodies f) i (rnodes r) ≡ₚ map_bodies f N :: delete i (rnodes r)).
    { assert (Ea : alter (map_bodies f) i (rnodes r) = <[i := map_bodies f N]> (rnodes r)) by (exact (alter_insert _ _ _ _ Hi)). rewrite Ea. by eapply insert_perm. }
    set (rest := delete i (rnodes r)) in *. assert (Hnm : names (Region (rargs r) (alter (map_bodies f) i (rnodes r)) (rres r)) ≡ₚ names r).
    { unfold names. cbn [rargs rnodes]. by rewrite (all_outs_perm _ _ P1), (all_outs_perm _ _ P2), !all_outs_cons, E2. }
    destruct Hg as [r ((W1 & W2 & W3) & (rank & R1 & R2) & K) Hgb]. assert (Hin : forall m, m ∈ alter (map_bodies f) i (rnodes r) -> exists m0, m0 ∈ rnodes r /\ nins m0 = nins m /\ nouts m0 = nouts m /\ (m = m0 \/ m = map_bodies f N)).
    { intros m Hm. rewrite P2 in Hm. apply elem_of_cons in Hm as [->|Hm]; [exists N; rewrite E1, E2; split; [by eapply elem_of_list_lookup_2|]; split; [done|]; split; [done|]; by right | exists m; split; [rewrite P1; by right|]; split; [done|]; split; [done|]; by left]. }
    split; [|split; [|split; [done|split; [done|split; [|split; [|split; [|split]]]]]]].
    - constructor; [split; [split; [|split]|split]|].
      + by rewrite Hnm.
      + intros m x Hm Hx. rewrite Hnm. cbn [rnodes] in Hm. destruct (Hin m Hm) as (m0 & Hm0 & F1 & _). rewrite <-F1 in Hx. by eapply W2.
      + intros x Hx. rewrite Hnm. by apply W3.
      + exists rank. cbn [rnodes rargs]. split; [intros m x y Hm Hx Hy | intros a m y Ha Hm Hy]; destruct (Hin m Hm) as (m0 & Hm0 & F1 & F2 & _); rewrite <-?F1 in *; rewrite <-?F2 in *; [by eapply R1 | by eapply R2].
      + intros m Hm. cbn [rnodes] in Hm. rewrite P2 in Hm. apply elem_of_cons in Hm as [->|Hm]; [|apply K; rewrite P1; by right]. pose proof (K N ltac:(by eapply elem_of_list_lookup_2)) as KN. unfold wf_gamma in *. rewrite E1, E2. destruct N as [[o|subs|b] ins outs]; cbn [map_bodies nkind nins nouts] in *; [done| |done].
        destruct KN as [K0 KN]. split; [done|]. intros s Hs. apply elem_of_list_fmap in Hs as (t & -> & Ht). destruct (KN t Ht) as (_ & L1 & L2). destruct (Hb' t Ht) as (Hgt & _ & -> & -> & _). split; [|done]. by destruct Hgt as [? (? & _) _].
      + intros m b Hm Hbm. cbn [rnodes] in Hm. rewrite P2 in Hm. apply elem_of_cons in Hm as [->|Hm]; [|apply (Hgb m); [rewrite P1; by right | done]]. rewrite E3 in Hbm. apply elem_of_list_fmap in Hbm as (t & -> & Ht). by destruct (Hb' t Ht) as (? & _).
    - intros vs ws. rewrite !runs_iff. cbn [rargs rnodes rres]. assert (Hh : forall rho, hold rho (rnodes r) <-> hold rho (alter (map_bodies f) i (rnodes r))).
      { intros rho. rewrite (hold_perm _ _ _ _ _ P1), (hold_perm _ _ _ _ _ P2), !hold_cons. by rewrite (map_bodies_holds f N rho Hb'). }
      by setoid_rewrite Hh.
    - rewrite extent_eq, extent_nodes, (sum_perm _ _ _ P1), (sum_perm _ _ _ P2). cbn [sum_list_with]. pose proof (weight_map f N Hb'). lia.
    - intros x _. unfold uses. cbn [rnodes rres]. setoid_rewrite P2. setoid_rewrite P1. split; (intros [(m & Hm & Hx)|]; [left|by right]); apply elem_of_cons in Hm as [->|Hm]; [exists (map_bodies f N); rewrite E1; split; [by left | done] | exists m; split; [by right | done] | exists N; rewrite <-E1; split; [by left | done] | exists m; split; [by right | done]].
    - intros Hbf j m Hj Hm. cbn [rnodes rres] in *. destruct (decide (j = i)) as [->|Hji].
      + rewrite list_lookup_alter, Hi in Hm. cbn in Hm. injection Hm as <-. split.
        * eapply settled_perm; [|by apply settled_map_self]. assert (Hlk : alter (map_bodies f) i (rnodes r) !! i = Some (map_bodies f N)) by (by rewrite list_lookup_alter, Hi). symmetry. by apply (perm_drop _ _ _ _ Hlk).
        * intros b Hbm. rewrite E3 in Hbm. apply elem_of_list_fmap in Hbm as (t & -> & Ht). by apply Hb.
      + rewrite list_lookup_alter_ne in Hm by done. destruct (Hbf j m ltac:(lia) Hm) as [Hs Hsb]. split; [|done]. assert (Hmr : exists rest0, rest ≡ₚ m :: rest0) by (apply elem_of_Permutation; unfold rest; by eapply delete_in). destruct Hmr as [rest0 P0].
        eapply settled_perm; [|apply (settled_map_other f m N rest0)].
        * assert (Hlk : alter (map_bodies f) i (rnodes r) !! j = Some m) by (by rewrite list_lookup_alter_ne). symmetry. apply (perm_drop _ _ _ _ Hlk). by rewrite P2, P0, perm_swap.
        * eapply settled_perm; [|exact Hs]. apply (perm_drop _ _ _ _ Hm). by rewrite P1, P0, perm_swap.
    - cbn [rnodes]. rewrite alter_length. lia.
    - cbn [rnodes]. split; intros E; [by rewrite E in Hi|]. assert (Hlk : is_Some (alter (map_bodies f) i (rnodes r) !! i)) by (rewrite list_lookup_alter, Hi; by eexists). rewrite E in Hlk. by destruct Hlk.
  Qed.
  Lemma visit_ok f E k : (forall b, good b -> body_ok f b) -> (forall b, good b -> extent b < E -> Sk (f b)) -> forall i r, good r -> extent r <= E -> length (rnodes r) <= i + k -> exists i', kept r i (visit f k i r) i' /\ length (rnodes (visit f k i r)) <= i'.
  Proof.
    intros Hf Hsk. induction k as [|k IH]; intros i r Hg He Hl; cbn [visit].
    - exists i. split; [by apply kept_refl | lia].
    - destruct (pull_gamma_ok r i Hg) as [K1 K2]. destruct (pull_gamma r i) as [r1 i1]. cbn [fst snd] in *. pose proof K1 as (Hg1 & _ & _ & _ & He1 & _ & _ & Hl1 & _).
      destruct (rnodes r1 !! i1) as [N|] eqn:EN.
      + assert (K3 : kept r1 i1 (Region (rargs r1) (alter (map_bodies f) i1 (rnodes r1)) (rres r1)) (S i1)).
        { apply (map_kept f r1 i1 N Hg1 EN); [|by apply K2]. intros b Hb. assert (HN : N ∈ rnodes r1) by (by eapply elem_of_list_lookup_2). assert (Hgb : good b) by (destruct Hg1 as [? _ Hgb]; by eapply Hgb). split; [by apply Hf|]. apply Hsk; [done|]. pose proof (body_extent r1 N b HN Hb). lia. }
        pose proof K3 as (Hg2 & _ & _ & _ & He2 & _ & _ & Hl2 & _). destruct (IH (S i1) _ Hg2 ltac:(lia)) as (i' & K4 & K5); [cbn [rnodes]; rewrite alter_length; lia|]. exists i'. split; [|done]. eapply kept_trans; [exact K1|]. eapply kept_trans; [exact K3 | exact K4].
      + assert (Ea : Region (rargs r1) (alter (map_bodies f) i1 (rnodes r1)) (rres r1) = r1). { destruct r1 as [A l res]. cbn [rargs rnodes rres] in *. f_equal. apply list_eq. intros j. destruct (decide (i1 = j)) as [->|]; [by rewrite list_lookup_alter, EN | by rewrite list_lookup_alter_ne]. }
        rewrite Ea. apply lookup_ge_None in EN. assert (K3 : kept r1 i1 r1 (S i1)).
        { split; [done|]. split; [done|]. split; [done|]. split; [done|]. split; [lia|]. split; [done|]. split; [|split; [lia|done]]. intros Hb j m Hj Hm. apply Hb; [|done]. apply lookup_lt_Some in Hm. lia. }
        destruct (IH (S i1) r1 Hg1 ltac:(lia) ltac:(lia)) as (i' & K4 & K5). exists i'. split; [|done]. eapply kept_trans; [exact K1|]. by eapply kept_trans.
  Qed.
End Pass.

Section Final.
  Context (other : nat -> list val -> option (list val)) (content : val -> val).
  Local Notation same := (same other content).
  Lemma sink_nodes_ok fuel : forall r, good r -> body_ok other content (sink_nodes fuel) r.
  Proof.
    induction fuel as [|fuel IH]; intros r Hg; [by repeat (split; [done|])|].
    destruct (visit_ok other content (fun _ => True) (sink_nodes fuel) (extent r) (length (rnodes r)) IH ltac:(done) 0 r Hg ltac:(lia) ltac:(lia)) as (i' & (K1 & K2 & K3 & K4 & K5 & K6 & _ & _ & K9) & _). by repeat (split; [done|]).
  Qed.
  Lemma sink_nodes_sunk fuel : forall r, good r -> extent r <= fuel -> sunk (sink_nodes fuel r).
  Proof.
    induction fuel as [|fuel IH]; intros r Hg He; cbn [sink_nodes].
    - destruct r as [A [|n l] res]; [constructor; [by intros [] ? ? ?|]; intros n b H; by apply elem_of_nil in H|]. rewrite extent_eq in He. cbn [sum_list_with] in He. unfold weight in He. lia.
    - destruct (visit_ok other content sunk (sink_nodes fuel) (extent r) (length (rnodes r)) (sink_nodes_ok fuel)) with (i := 0) (r := r) as (i' & (K1 & K2 & K3 & K4 & K5 & K6 & K7 & _ & K9) & Hl); [intros b Hgb Hb; apply IH; [done | lia] | done | lia | lia|].
      assert (Hbf : before sunk (visit (sink_nodes fuel) (length (rnodes r)) 0 r) i') by (apply K7; intros j m Hj; lia). constructor.
      + intros l1 G l2 E. assert (HG : rnodes (visit (sink_nodes fuel) (length (rnodes r)) 0 r) !! length l1 = Some G) by (rewrite E; by apply list_lookup_middle). destruct (Hbf (length l1) G) as [Hs _]; [apply lookup_lt_Some in HG; lia | done|]. rewrite E in Hs. by rewrite delete_middle in Hs.
      + intros n b Hn Hb. apply elem_of_list_lookup in Hn as [j Hj]. destruct (Hbf j n) as [_ Hs]; [apply lookup_lt_Some in Hj; lia | done|]. by apply Hs.
  Qed.
  Lemma visit_ext f f' E k : (forall b, good b -> body_ok other content f b) -> (forall b, good b -> extent b < E -> f b = f' b) -> forall i r, good r -> extent r <= E -> visit f k i r = visit f' k i r.
  Proof.
    intros Hf Hff. induction k as [|k IH]; intros i r Hg He; cbn [visit]; [done|]. destruct (pull_gamma_ok other content (fun _ => True) r i Hg) as [K1 K2]. destruct (pull_gamma r i) as [r1 i1]. cbn [fst snd] in *. pose proof K1 as (Hg1 & _ & _ & _ & He1 & _).
    assert (Hbo : forall N b, rnodes r1 !! i1 = Some N -> b ∈ bodies N -> good b /\ extent b < E). { intros N b HN Hb. assert (HN' : N ∈ rnodes r1) by (by eapply elem_of_list_lookup_2). pose proof (body_extent r1 N b HN' Hb). split; [destruct Hg1 as [? _ Hgb]; by eapply Hgb | lia]. }
    assert (Ea : alter (map_bodies f) i1 (rnodes r1) = alter (map_bodies f') i1 (rnodes r1)).
    { apply list_eq. intros j. destruct (decide (i1 = j)) as [->|]; [|by rewrite !list_lookup_alter_ne]. rewrite !list_lookup_alter. destruct (rnodes r1 !! j) as [N|] eqn:EN; [|done]. cbn. f_equal. specialize (Hbo N). destruct N as [[o|subs|b] ins outs]; cbn [map_bodies bodies nkind] in *; [done| |].
      - f_equal. f_equal. apply map_ext_in. intros s Hs%elem_of_list_In. destruct (Hbo s eq_refl Hs). by apply Hff.
      - f_equal. f_equal. destruct (Hbo b eq_refl ltac:(by left)). by apply Hff. }
    destruct (rnodes r1 !! i1) as [N|] eqn:EN.
    - assert (K3 : kept other content (fun _ => True) r1 i1 (Region (rargs r1) (alter (map_bodies f) i1 (rnodes r1)) (rres r1)) (S i1)).
      { apply (map_kept other content (fun _ => True) f r1 i1 N Hg1 EN); [|by apply K2]. intros b Hb. split; [|done]. apply Hf. by apply (Hbo N b). }
      destruct K3 as (Hg2 & _ & _ & _ & He2 & _). rewrite <-Ea. apply IH; [done | lia].
    - assert (Eb : forall h, Region (rargs r1) (alter (map_bodies h) i1 (rnodes r1)) (rres r1) = r1). { intros h. destruct r1 as [A l res]. cbn [rargs rnodes rres] in *. f_equal. apply list_eq. intros j. destruct (decide (i1 = j)) as [->|]; [by rewrite list_lookup_alter, EN | by rewrite list_lookup_alter_ne]. }
      rewrite !Eb. apply IH; [done | lia].
  Qed.
  Lemma sink_nodes_fuel fuel : forall fuel' r, good r -> extent r <= fuel -> extent r <= fuel' -> sink_nodes fuel r = sink_nodes fuel' r.
  Proof.
    assert (H0 : forall f r, extent r = 0 -> sink_nodes f r = r). { intros f r Ee. destruct r as [A [|n l] res]; [by destruct f|]. rewrite extent_eq in Ee. cbn [sum_list_with] in Ee. unfold weight in Ee. lia. }
    induction fuel as [|fuel IH]; intros fuel' r Hg He He'; [by rewrite !H0 by lia|]. destruct fuel' as [|fuel']; [by rewrite !H0 by lia|]. cbn [sink_nodes]. apply (visit_ext _ _ (extent r)); [apply sink_nodes_ok| |done|lia]. intros b Hgb Hb. apply IH; [done|lia|lia].
  Qed.
End Final.
