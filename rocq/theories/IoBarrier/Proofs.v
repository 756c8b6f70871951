(** When the elimination of barriers keeps a region safe. *)
From stdpp Require Import base list.
From Coq Require Import Lia.
From Verif.IoBarrier Require Import Model Spec.

Lemma barrier_of_some g a v io : barrier_of g a = Some (v, io) -> exists m k, a = Out m k /\ g !! m = Some (Barrier v io).
Proof.
  destruct a as [i|m k]; cbn; [discriminate|]. destruct (g !! m) as [[| |]|] eqn:E; try discriminate.
  intros H. injection H as -> ->. eauto.
Qed.
Lemma barrier_of_none g a : barrier_of g a = None -> forall m k v io, a = Out m k -> g !! m <> Some (Barrier v io).
Proof. intros H m k v io -> E. cbn in H. rewrite E in H. discriminate H. Qed.

(** Marks: the largest size of the loads that show an address to be
    dereferenceable. *)
Definition shows (g : graph) (x : node) (a : origin) (size : nat) : Prop :=
  exists b states, x = Load b size states /\
    ((b = a /\ forall m k v io, b = Out m k -> g !! m <> Some (Barrier v io)) \/
     (exists m k i, b = Out m k /\ g !! m = Some (Barrier a (Arg i)))).
Lemma mark_dereferenceable_spec c o size a s :
  mark_dereferenceable c o size a = Some s -> c a = Some s \/ (a = o /\ s = size).
Proof.
  unfold mark_dereferenceable. destruct (decide (a = o)) as [->|]; [|auto].
  destruct (c o) as [s'|]; [|intros H; injection H as <-; auto].
  destruct (s' <? size); intros H; injection H as <-; auto.
Qed.
Lemma mark_dereferenceable_le c o size a s : c a = Some s -> exists s', mark_dereferenceable c o size a = Some s' /\ s <= s'.
Proof.
  unfold mark_dereferenceable. intros H. destruct (decide (a = o)) as [->|]; [|eauto].
  rewrite H. destruct (s <? size) eqn:E; [apply Nat.ltb_lt in E; exists size; split; [reflexivity|lia]|eauto].
Qed.
Lemma mark_dereferenceable_new c o size : exists s', mark_dereferenceable c o size o = Some s' /\ size <= s'.
Proof.
  unfold mark_dereferenceable. rewrite decide_True by reflexivity. destruct (c o) as [s|]; [|eauto].
  destruct (s <? size) eqn:E; [eauto|]. apply Nat.ltb_ge in E. eauto.
Qed.
Lemma mark_node_spec g c x a s : mark_node g c x a = Some s -> c a = Some s \/ shows g x a s.
Proof.
  destruct x as [b size ss|v io|os]; cbn; [|auto|auto].
  destruct (barrier_of g b) as [[v io]|] eqn:E.
  - destruct (barrier_of_some _ _ _ _ E) as (m & k & -> & Hm). destruct io as [i|]; [|auto].
    intros H. destruct (mark_dereferenceable_spec _ _ _ _ _ H) as [?|[-> ->]]; [auto|].
    right. exists (Out m k), ss. split; [reflexivity|]. right. exists m, k, i. auto.
  - intros H. destruct (mark_dereferenceable_spec _ _ _ _ _ H) as [?|[-> ->]]; [auto|].
    right. exists b, ss. split; [reflexivity|]. left. split; [reflexivity|]. exact (barrier_of_none _ _ E).
Qed.
Lemma mark_node_le g c x a s : c a = Some s -> exists s', mark_node g c x a = Some s' /\ s <= s'.
Proof.
  intros H. destruct x as [b size ss|v io|os]; cbn; [|eauto|eauto].
  destruct (barrier_of g b) as [[v [i|m k]]|]; [|eauto|]; apply mark_dereferenceable_le; exact H.
Qed.
Lemma mark_node_new g c x a size : shows g x a size -> exists s', mark_node g c x a = Some s' /\ size <= s'.
Proof.
  intros (b & ss & -> & H). cbn. destruct H as [[-> H]|(m & k & i & -> & H)].
  - destruct (barrier_of g a) as [[v io]|] eqn:E.
    + destruct (barrier_of_some _ _ _ _ E) as (m & k & E1 & E2). destruct (H m k v io E1 E2).
    + apply mark_dereferenceable_new.
  - cbn. rewrite H. apply mark_dereferenceable_new.
Qed.
Lemma mark_fold_spec g xs : forall c a s, fold_left (mark_node g) xs c a = Some s ->
  c a = Some s \/ exists x, x ∈ xs /\ shows g x a s.
Proof.
  induction xs as [|x xs IH]; intros c a s H; cbn in H; [auto|].
  destruct (IH _ _ _ H) as [H'|(y & Hy & Hs)].
  - destruct (mark_node_spec _ _ _ _ _ H') as [?|Hs]; [auto|]. right. exists x. split; [apply elem_of_list_here|exact Hs].
  - right. exists y. split; [apply elem_of_list_further; exact Hy|exact Hs].
Qed.
Lemma mark_fold_le g xs : forall c a s, c a = Some s -> exists s', fold_left (mark_node g) xs c a = Some s' /\ s <= s'.
Proof.
  induction xs as [|x xs IH]; intros c a s H; cbn; [eauto|].
  destruct (mark_node_le g c x a s H) as (s1 & H1 & L1). destruct (IH _ _ _ H1) as (s2 & H2 & L2). exists s2. split; [exact H2|lia].
Qed.
Lemma mark_fold_new g xs : forall c a x size, x ∈ xs -> shows g x a size -> exists s', fold_left (mark_node g) xs c a = Some s' /\ size <= s'.
Proof.
  induction xs as [|y xs IH]; intros c a x size Hx Hs; [inversion Hx|]. cbn.
  apply elem_of_cons in Hx. destruct Hx as [->|Hx]; [|exact (IH _ _ _ _ Hx Hs)].
  destruct (mark_node_new g c y a size Hs) as (s1 & H1 & L1). destruct (mark_fold_le g xs _ _ _ H1) as (s2 & H2 & L2). exists s2. split; [exact H2|lia].
Qed.
Lemma shows_unbarred g n x a size : g !! n = Some x -> shows g x a size -> unbarred g n a size.
Proof. intros Hn (b & ss & -> & H). exists b, ss. auto. Qed.
Lemma mark_region_spec g a s : mark_region g a = Some s -> exists n, unbarred g n a s.
Proof.
  intros H. destruct (mark_fold_spec _ _ _ _ _ H) as [H'|(x & Hx & Hs)]; [discriminate H'|].
  apply elem_of_list_lookup in Hx. destruct Hx as [n Hn]. exists n. exact (shows_unbarred _ _ _ _ _ Hn Hs).
Qed.
Lemma mark_region_complete g n a size : unbarred g n a size -> exists s, mark_region g a = Some s /\ size <= s.
Proof.
  intros (b & ss & Hn & H). apply (mark_fold_new g g empty a (Load b size ss) size).
  - apply elem_of_list_lookup. eauto.
  - exists b, ss. auto.
Qed.

Lemma eliminate_lookup g n : eliminate g !! n = sweep_node g (mark_region g) <$> g !! n.
Proof. apply list_lookup_fmap. Qed.
(** Exactly the loads behind a barrier whose address is shown to be
    dereferenceable for their size lose the barrier, and nothing else changes. *)
Theorem eliminate_exact g n :
  (eliminate g !! n <> g !! n ->
     exists m k v io size states p s, g !! n = Some (Load (Out m k) size states) /\ g !! m = Some (Barrier v io) /\
       eliminate g !! n = Some (Load v size states) /\ unbarred g p v s /\ size <= s) /\
  (forall m k v io size states p s, g !! n = Some (Load (Out m k) size states) -> g !! m = Some (Barrier v io) ->
     unbarred g p v s -> size <= s -> eliminate g !! n = Some (Load v size states)).
Proof.
  rewrite eliminate_lookup. split.
  - intros H. destruct (g !! n) as [x|] eqn:Hn; [|exfalso; apply H; reflexivity].
    change (sweep_node g (mark_region g) <$> Some x) with (Some (sweep_node g (mark_region g) x)) in *.
    destruct x as [b size ss|v io|os]; [|exfalso; apply H; reflexivity|exfalso; apply H; reflexivity].
    cbn [sweep_node] in *.
    destruct (barrier_of g b) as [[v io]|] eqn:E; [|exfalso; apply H; reflexivity].
    destruct (mark_region g v) as [s|] eqn:Es; [|exfalso; apply H; reflexivity].
    destruct (s <? size) eqn:L; [exfalso; apply H; reflexivity|]. apply Nat.ltb_ge in L.
    destruct (barrier_of_some _ _ _ _ E) as (m & k & -> & Hm). destruct (mark_region_spec _ _ _ Es) as [p Hp].
    exists m, k, v, io, size, ss, p, s. auto.
  - intros m k v io size ss p s Hn Hm Hp L. rewrite Hn.
    change (sweep_node g (mark_region g) <$> Some (Load (Out m k) size ss)) with (Some (sweep_node g (mark_region g) (Load (Out m k) size ss))).
    cbn [sweep_node barrier_of]. rewrite Hm.
    destruct (mark_region_complete _ _ _ _ Hp) as (s' & -> & L'). destruct (s' <? size) eqn:E; [apply Nat.ltb_lt in E; lia|reflexivity].
Qed.

Section Orders.
  Context (g : graph) (w : world).

  Lemma executed_merge ms ns : executed g w ms -> executed g w ns ->
    (forall m, m ∈ ms -> stops w m = false) -> (forall m, m ∈ ns -> stops w m = false) ->
    exists rs, executed g w rs /\ forall m, m ∈ rs <-> m ∈ ms \/ m ∈ ns.
  Proof.
    intros H Hn. induction H as [|n ms H IH Hnin Hg Hu Hs]; intros Hms Hns.
    - exists ns. split; [exact Hn|]. intros m. rewrite elem_of_nil. tauto.
    - destruct IH as (rs & Hrs & Hel); [intros m Hm; apply Hms; apply elem_of_list_further; exact Hm|exact Hns|].
      destruct (decide (n ∈ rs)) as [Hin|Hnot].
      + exists rs. split; [exact Hrs|]. intros m. rewrite elem_of_cons, Hel. split; [tauto|].
        intros [[->|?]|?]; [apply Hel; exact Hin|tauto|tauto].
      + exists (n :: rs). split.
        * constructor; try assumption.
          -- intros m Hm. apply Hel. left. exact (Hu m Hm).
          -- intros m Hm. apply Hel in Hm. destruct Hm; [exact (Hs m ltac:(assumption))|apply Hns; assumption].
        * intros m. rewrite !elem_of_cons, Hel. tauto.
  Qed.

  (** The union of orders for each of some nodes. *)
  Lemma executed_all (P : nat -> Prop) (os : list origin) :
    (forall m k, Out m k ∈ os -> exists rs, executed g w rs /\ m ∈ rs /\ (forall r, r ∈ rs -> P r /\ stops w r = false)) ->
    exists rs, executed g w rs /\ (forall m k, Out m k ∈ os -> m ∈ rs) /\ (forall r, r ∈ rs -> P r /\ stops w r = false).
  Proof.
    induction os as [|o os IH]; intros H.
    - exists []. split; [constructor|]. split; [intros m k Hm|intros r Hr]; exfalso; [inversion Hm|inversion Hr].
    - destruct IH as (rs & H1 & H2 & H3). { intros m k Hm. apply (H m k). apply elem_of_list_further. exact Hm. }
      destruct o as [i|m k].
      + exists rs. split; [exact H1|]. split; [|exact H3]. intros m k Hm. apply elem_of_cons in Hm. destruct Hm as [Hm|Hm]; [discriminate Hm|exact (H2 _ _ Hm)].
      + destruct (H m k (elem_of_list_here _ _)) as (ms & M1 & M2 & M3).
        destruct (executed_merge ms rs M1 H1) as (us & U1 & U2); [intros; apply M3; assumption|intros; apply H3; assumption|].
        exists us. split; [exact U1|]. split.
        * intros m' k' Hm. apply U2. apply elem_of_cons in Hm. destruct Hm as [Hm|Hm]; [injection Hm as -> ->; left; exact M2|right; exact (H2 _ _ Hm)].
        * intros r Hr. apply U2 in Hr. destruct Hr; [apply M3|apply H3]; assumption.
  Qed.

  (** A node that depends on no node that does not return can be executed. *)
  Lemma executed_unconditional : topological g -> forall n, is_Some (g !! n) ->
    (forall m, depends g n m -> stops w m = false) ->
    exists ns, executed g w (n :: ns) /\ forall m, m ∈ ns -> m < n /\ stops w m = false.
  Proof.
    intros Ht n. induction (lt_wf n) as [n _ IH]. intros [x Hx] Hd.
    destruct (executed_all (fun r => r < n) (operands_of x)) as (rs & R1 & R2 & R3).
    - intros m k Hm. assert (uses g n m) as Hu by (exists x, k; auto). pose proof (Ht _ _ Hu) as Hlt.
      destruct (IH m Hlt) as (ms & M1 & M2).
      { apply lookup_lt_is_Some_2. apply lookup_lt_Some in Hx. lia. }
      { intros p Hp. apply Hd. exact (depends_trans g n m p Hu Hp). }
      exists (m :: ms). split; [exact M1|]. split; [apply elem_of_list_here|]. intros r Hr. apply elem_of_cons in Hr.
      destruct Hr as [->|Hr]; [split; [exact Hlt|apply Hd; exact (depends_direct g n m Hu)]|]. destruct (M2 r Hr). split; [lia|assumption].
    - exists rs. split; [|exact R3]. constructor.
      + exact R1.
      + intros Hin. destruct (R3 _ Hin). lia.
      + eauto.
      + intros m (y & k & Hy & Hm). rewrite Hx in Hy. injection Hy as <-. exact (R2 _ _ Hm).
      + intros m Hm. apply R3. exact Hm.
  Qed.
End Orders.

(** An order of the new graph has in it one of the old graph for each node that
    depends on no changed load. *)
Lemma executed_old g g' w ns : executed g' w ns -> (forall m, m ∈ ns -> stops w m = false) ->
  forall n, n ∈ ns -> g' !! n = g !! n -> (forall m, depends g' n m -> g' !! m = g !! m) ->
  exists rs, executed g w rs /\ n ∈ rs /\ forall r, r ∈ rs -> r ∈ ns.
Proof.
  intros H. induction H as [|p ns H IH Hnin Hg Hu Hs]; intros Hst n Hn He Hd; [inversion Hn|].
  assert (forall m, m ∈ ns -> stops w m = false) as Hst' by (intros m Hm; apply Hst; apply elem_of_list_further; exact Hm).
  destruct (decide (n ∈ ns)) as [Hin|Hnot].
  - destruct (IH Hst' n Hin He Hd) as (rs & R1 & R2 & R3). exists rs. split; [exact R1|]. split; [exact R2|]. intros r Hr. apply elem_of_list_further. exact (R3 r Hr).
  - apply elem_of_cons in Hn. destruct Hn as [->|Hn]; [|contradiction]. destruct Hg as [x Hx].
    destruct (executed_all g w (fun r => r ∈ ns) (operands_of x)) as (rs & R1 & R2 & R3).
    + intros m k Hm. assert (uses g' p m) as Hup by (exists x, k; auto).
      destruct (IH Hst' m (Hu m Hup)) as (rs & R1 & R2 & R3).
      * apply Hd. exact (depends_direct g' p m Hup).
      * intros q Hq. apply Hd. exact (depends_trans g' p m q Hup Hq).
      * exists rs. split; [exact R1|]. split; [exact R2|]. intros r Hr. split; [exact (R3 r Hr)|exact (Hst' r (R3 r Hr))].
    + exists (p :: rs). split; [|split].
      * constructor.
        -- exact R1.
        -- intros Hin. apply Hnin. apply R3. exact Hin.
        -- rewrite <- He, Hx. eauto.
        -- intros m (y & k & Hy & Hm). rewrite <- He, Hx in Hy. injection Hy as <-. exact (R2 _ _ Hm).
        -- intros m Hm. apply R3. exact Hm.
      * apply elem_of_list_here.
      * intros r Hr. apply elem_of_cons in Hr. destruct Hr as [->|Hr]; [apply elem_of_list_here|apply elem_of_list_further; apply R3; exact Hr].
Qed.

Lemma decide_changed g n : {eliminate g !! n <> g !! n} + {eliminate g !! n = g !! n}.
Proof.
  assert (EqDecision node) as D by (intros x y; unfold Decision; repeat decide equality).
  destruct (decide (eliminate g !! n = g !! n)); auto.
Qed.

(** The elimination keeps a region safe if the loads that show an address that is
    behind a barrier to be dereferenceable depend on no node that does not
    return, and no other load depends on a load that loses its barrier. *)
Theorem barrier_elimination_safe_partial g w :
  topological g -> barriers_transparent g w -> safe g w ->
  (forall n a size m, barred g a -> unbarred g n a size -> depends g n m -> stops w m = false) ->
  (forall n m, is_load g n -> ~ changed g (eliminate g) n -> depends (eliminate g) n m -> ~ changed g (eliminate g) m) ->
  safe (eliminate g) w.
Proof.
  intros Ht Htr Hsafe Hmark Hdep n ns a size ss Hex Hn.
  (* a load that shows an address to be dereferenceable shows it in this execution *)
  assert (forall p v s, barred g v -> unbarred g p v s -> s <= accessible w v) as Hshow.
  { intros p v s Hbar Hp. pose proof Hp as (b & st & Hg & Hb).
    destruct (executed_unconditional g w Ht p) as (ms & M1 & _); [rewrite Hg; eauto|intros m Hm; exact (Hmark p v s m Hbar Hp Hm)|].
    pose proof (Hsafe p ms b s st M1 Hg) as Hle. destruct Hb as [[-> _]|(m & k & i & -> & Hm)]; [exact Hle|].
    rewrite <- (Htr m v (Arg i) k Hm). exact Hle. }
  destruct (decide_changed g n) as [Hc|Hc].
  - destruct (eliminate_exact g n) as [H1 _]. destruct (H1 Hc) as (m & k & v & io & size' & ss' & p & s & _ & Hbar & E & Hp & L).
    rewrite E in Hn. injection Hn as <- <- <-. pose proof (Hshow p v s (ex_intro _ m (ex_intro _ io Hbar)) Hp). lia.
  - assert (is_load g n) as Hl. { exists a, size, ss. rewrite <- Hc. exact Hn. }
    inversion Hex as [|n' ns' Hex' Hnin Hg Hu Hs]; subst.
    assert (forall m, depends (eliminate g) n m -> eliminate g !! m = g !! m) as Hd.
    { intros m Hm. destruct (decide_changed g m) as [Hcm|Hcm]; [|exact Hcm]. exfalso.
      apply (Hdep n m Hl); [unfold changed; congruence|exact Hm|unfold changed; congruence]. }
    destruct (executed_all g w (fun r => r ∈ ns) (operands_of (Load a size ss))) as (rs & R1 & R2 & R3).
    { intros m k Hm. assert (uses (eliminate g) n m) as Hum by (exists (Load a size ss), k; auto).
      destruct (executed_old g (eliminate g) w ns Hex' Hs m (Hu m Hum)) as (rs & R1 & R2 & R3).
      - apply Hd. apply depends_direct. exact Hum.
      - intros q Hq. apply Hd. exact (depends_trans _ n m q Hum Hq).
      - exists rs. split; [exact R1|]. split; [exact R2|]. intros r Hr. split; [exact (R3 r Hr)|exact (Hs r (R3 r Hr))]. }
    rewrite Hc in Hn. apply (Hsafe n rs a size ss); [|exact Hn]. constructor.
    + exact R1.
    + intros Hin. apply Hnin. apply R3. exact Hin.
    + rewrite Hn. eauto.
    + intros m (y & k & Hy & Hm). rewrite Hn in Hy. injection Hy as <-. exact (R2 _ _ Hm).
    + intros m Hm. apply R3. exact Hm.
Qed.

(** Nothing is executed that depends on a node that does not return. *)
Lemma executed_closed g w ns : executed g w ns -> forall n m, n ∈ ns -> depends g n m -> m ∈ ns.
Proof.
  intros Hex.
  assert (forall n m, n ∈ ns -> uses g n m -> m ∈ ns) as Hu.
  { induction Hex as [|x xs Hex IH Hnin Hg Hu Hst]; intros n m Hn Hm; [inversion Hn|]. apply elem_of_list_further.
    apply elem_of_cons in Hn. destruct Hn as [->|Hn]; [exact (Hu _ Hm)|exact (IH _ _ Hn Hm)]. }
  intros n m Hn Hd. induction Hd as [n m Hd|n m p Hd Hd' IH]; [exact (Hu _ _ Hn Hd)|]. apply IH. exact (Hu _ _ Hn Hd).
Qed.
Lemma not_executed g w n m ns : executed g w (n :: ns) -> depends g n m -> stops w m = true -> False.
Proof.
  intros H Hd Hs. inversion H as [|n' ns' Hex Hnin Hg Hu Hst]; subst.
  assert (m ∈ ns) as Hin.
  { inversion Hd as [? ? H1|? q ? H1 H2]; subst; [exact (Hu _ H1)|]. exact (executed_closed g w ns Hex q m (Hu _ H1) H2). }
  rewrite (Hst m Hin) in Hs. discriminate Hs.
Qed.

(** A load without a barrier that is executed after a call because of the
    memory states only shows nothing about the time before the call:
      g0(p); x = *p (behind a barrier); g(p); y = *p;
    where g0 does not return if p is null and touches no memory, and the last
    load takes the memory state of g's output. Without the barrier x = *p can
    be executed before g0. *)
Definition g_states : graph := [
  OtherNode [Arg 0; Arg 1];
  Barrier (Arg 0) (Out 0 0);
  Load (Out 1 0) 4 [Arg 2];
  OtherNode [Out 0 0; Arg 2];
  Load (Arg 0) 4 [Out 3 1]].
Definition w_states : world := World (fun _ => 0) (fun n => n =? 0).
Theorem barrier_elimination_states_refuted :
  topological g_states /\ barriers_transparent g_states w_states /\ safe g_states w_states /\
  (forall n m, is_load g_states n -> ~ changed g_states (eliminate g_states) n -> depends (eliminate g_states) n m -> ~ changed g_states (eliminate g_states) m) /\
  ~ safe (eliminate g_states) w_states.
Proof.
  assert (forall n m, uses g_states n m -> (n = 1 /\ m = 0) \/ (n = 2 /\ m = 1) \/ (n = 3 /\ m = 0) \/ (n = 4 /\ m = 3)) as Hu.
  { intros n m (x & k & Hx & Hk). destruct n as [|[|[|[|[|n]]]]]; cbn in Hx; try discriminate Hx; injection Hx as <-; cbn in Hk;
      repeat (apply elem_of_cons in Hk; destruct Hk as [Hk|Hk]; [try discriminate Hk; injection Hk as -> ->; tauto|]); inversion Hk. }
  split; [|split; [|split; [|split]]].
  - intros n m H. destruct (Hu _ _ H) as [?|[?|[?|?]]]; lia.
  - intros n v io k _. reflexivity.
  - intros n ns a size ss Hex Hn. exfalso.
    assert (depends g_states n 0) as Hd; [|exact (not_executed _ _ _ _ _ Hex Hd eq_refl)].
    destruct n as [|[|[|[|[|n]]]]]; cbn in Hn; try discriminate Hn.
    + apply (depends_trans _ 2 1 0); [|apply depends_direct].
      * exists (Load (Out 1 0) 4 [Arg 2]), 0. split; [reflexivity|apply elem_of_list_here].
      * exists (Barrier (Arg 0) (Out 0 0)), 0. split; [reflexivity|]. apply elem_of_list_further, elem_of_list_here.
    + apply (depends_trans _ 4 3 0); [|apply depends_direct].
      * exists (Load (Arg 0) 4 [Out 3 1]), 1. split; [reflexivity|apply elem_of_list_further, elem_of_list_here].
      * exists (OtherNode [Out 0 0; Arg 2]), 0. split; [reflexivity|apply elem_of_list_here].
  - intros n m [a [size [ss Hn]]] Hc Hd Hm.
    assert (m = 2) as ->.
    { destruct m as [|[|[|[|[|m]]]]]; [exfalso; apply Hm; reflexivity|exfalso; apply Hm; reflexivity|reflexivity|exfalso; apply Hm; reflexivity|exfalso; apply Hm; reflexivity|exfalso; apply Hm; reflexivity]. }
    assert (forall n, uses (eliminate g_states) n 2 -> False) as Hno.
    { intros p (x & k & Hx & Hk). destruct p as [|[|[|[|[|p]]]]]; cbn in Hx; try discriminate Hx; injection Hx as <-; cbn in Hk;
      repeat (apply elem_of_cons in Hk; destruct Hk as [Hk|Hk]; [discriminate Hk|]); inversion Hk. }
    clear Hn Hc Hm. remember 2 as two eqn:E. induction Hd as [p q H|p q r H H' IH]; subst; [exact (Hno _ H)|exact (IH eq_refl Hu Hno)].
  - intros H. assert (4 <= 0); [|lia]. apply (H 2 [] (Arg 0) 4 [Arg 2]); [|reflexivity].
    constructor; [constructor|intros Hx; inversion Hx|eexists; reflexivity| |intros m Hx; inversion Hx].
    intros m (x & k & Hx & Hk). cbn in Hx. injection Hx as <-. cbn in Hk.
    repeat (apply elem_of_cons in Hk; destruct Hk as [Hk|Hk]; [discriminate Hk|]). inversion Hk.
Qed.

(** A load of the value of a load that loses its barrier loses its order, too:
      x = *p; g0(x); ... **p (the load of p behind a barrier)
    where g0 does not return if x is no valid pointer. Without the barrier the
    load of the loaded pointer can be executed before g0. *)
Definition g_dependent : graph := [
  Load (Arg 0) 8 [Arg 2];
  OtherNode [Out 0 0; Arg 1];
  Barrier (Arg 0) (Out 1 0);
  Load (Out 2 0) 8 [Arg 2];
  Load (Out 3 0) 4 [Arg 2]].
Definition w_dependent : world := World (fun o => match o with Out 3 0 => 0 | _ => 8 end) (fun n => n =? 1).
Theorem barrier_elimination_dependent_refuted :
  topological g_dependent /\ barriers_transparent g_dependent w_dependent /\ safe g_dependent w_dependent /\
  (forall n a size m, barred g_dependent a -> unbarred g_dependent n a size -> depends g_dependent n m -> stops w_dependent m = false) /\
  ~ safe (eliminate g_dependent) w_dependent.
Proof.
  assert (forall n m, uses g_dependent n m -> (n = 1 /\ m = 0) \/ (n = 2 /\ m = 1) \/ (n = 3 /\ m = 2) \/ (n = 4 /\ m = 3)) as Hu.
  { intros n m (x & k & Hx & Hk). destruct n as [|[|[|[|[|n]]]]]; cbn in Hx; try discriminate Hx; injection Hx as <-; cbn in Hk;
      repeat (apply elem_of_cons in Hk; destruct Hk as [Hk|Hk]; [try discriminate Hk; injection Hk as -> ->; tauto|]); inversion Hk. }
  assert (uses g_dependent 2 1) as H21. { exists (Barrier (Arg 0) (Out 1 0)), 0. split; [reflexivity|]. apply elem_of_list_further, elem_of_list_here. }
  assert (uses g_dependent 3 2) as H32. { exists (Load (Out 2 0) 8 [Arg 2]), 0. split; [reflexivity|]. apply elem_of_list_here. }
  assert (uses g_dependent 4 3) as H43. { exists (Load (Out 3 0) 4 [Arg 2]), 0. split; [reflexivity|]. apply elem_of_list_here. }
  split; [|split; [|split; [|split]]].
  - intros n m H. destruct (Hu _ _ H) as [?|[?|[?|?]]]; lia.
  - intros n v io k Hn. destruct n as [|[|[|[|[|n]]]]]; cbn in Hn; try discriminate Hn. injection Hn as <- <-. reflexivity.
  - intros n ns a size ss Hex Hn. destruct n as [|[|[|[|[|n]]]]]; cbn in Hn; try discriminate Hn.
    + injection Hn as <- <- <-. cbn. lia.
    + exfalso. apply (not_executed _ _ _ 1 _ Hex); [|reflexivity]. exact (depends_trans _ _ _ _ H32 (depends_direct _ _ _ H21)).
    + exfalso. apply (not_executed _ _ _ 1 _ Hex); [|reflexivity]. exact (depends_trans _ _ _ _ H43 (depends_trans _ _ _ _ H32 (depends_direct _ _ _ H21))).
  - intros n a size m (b & io & Hb) (c & ss & Hn & Hc) Hd.
    assert (a = Arg 0) as ->. { destruct b as [|[|[|[|[|b]]]]]; cbn in Hb; try discriminate Hb. injection Hb as -> _. reflexivity. }
    assert (n = 0) as ->.
    { destruct n as [|[|[|[|[|n]]]]]; cbn in Hn; try discriminate Hn; [reflexivity| |]; injection Hn as <- <- <-;
        (destruct Hc as [[Hc _]|(q & k & i & Hq & Hc)]; [discriminate Hc|]); injection Hq as <- <-; cbn in Hc; discriminate Hc. }
    inversion Hd as [? ? H|? ? ? H H']; subst; destruct (Hu _ _ H) as [?|[?|[?|?]]]; lia.
  - intros H. assert (4 <= 0); [|lia]. apply (H 4 [3] (Out 3 0) 4 [Arg 2]); [|reflexivity].
    constructor.
    + constructor; [constructor|intros Hx; inversion Hx|eexists; reflexivity| |intros m Hx; inversion Hx].
      intros m (x & k & Hx & Hk). cbn in Hx. injection Hx as <-. cbn in Hk.
      repeat (apply elem_of_cons in Hk; destruct Hk as [Hk|Hk]; [discriminate Hk|]). inversion Hk.
    + intros Hx. apply elem_of_list_singleton in Hx. discriminate Hx.
    + eexists. reflexivity.
    + intros m (x & k & Hx & Hk). cbn in Hx. injection Hx as <-. cbn in Hk.
      apply elem_of_cons in Hk. destruct Hk as [Hk|Hk]; [injection Hk as -> ->; apply elem_of_list_here|].
      apply elem_of_list_singleton in Hk. discriminate Hk.
    + intros m Hm. apply elem_of_list_singleton in Hm as ->. reflexivity.
Qed.
