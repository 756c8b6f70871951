(** Runs of the two traversers. *)
From stdpp Require Import base list gmap.
From Verif.Region Require Import Model Spec Proofs Proofs9 Properties.
From Verif.Traverser Require Import Model Spec Proofs Proofs2 Proofs3 Proofs4 Proofs5 Proofs6 Proofs7 Proofs8 Proofs9 Proofs10 Proofs11.

(** ** top down *)
Definition todo (r : region) (t : tracker) : nat := size (filter (fun kv : ptr * node => st t kv.1 <> Behind) (nodes r)).
Lemma todo_le r t : todo r t <= size (nodes r).
Proof. unfold todo. rewrite <- !size_dom. apply subseteq_size. intros x. rewrite !elem_of_dom. intros [e H]. apply map_filter_lookup_Some in H as [H _]. now exists e. Qed.
Lemma todo_lt r t t' n : is_node r n -> st t n <> Behind -> (forall m, st t' m = Behind <-> m = n \/ st t m = Behind) -> todo r t' < todo r t.
Proof.
  intros [nd Hn] Hs S. unfold todo. rewrite <- !size_dom. apply subset_size. split.
  - intros x. rewrite !elem_of_dom. intros [e H]. apply map_filter_lookup_Some in H as [H1 H2]. exists e. apply map_filter_lookup_Some. split; [assumption|]. cbn in *. rewrite S in H2. tauto.
  - intros H. specialize (H n). rewrite !elem_of_dom in H. destruct H as [e H]; [exists nd; apply map_filter_lookup_Some; auto|]. apply map_filter_lookup_Some in H as [_ H]. cbn in H. apply H. apply S. now left.
Qed.
Lemma td_next_ok b cut ids fuel : forall r t x s', RI (TDI b) cut (r, t) ids -> td_next cut fuel (r, t) = Some (x, s') ->
  s'.1 = r /\
  match x with
  | None => RI (TDI b) cut s' ids /\ peek s'.2 = None
  | Some n => exists nd, nodes r !! n = Some nd /\ nd_id nd < cut /\ nd_id nd ∉ ids /\ RI (TDI b) cut s' (ids ++ [nd_id nd]) /\
      (forall m md, uses r n m -> nodes r !! m = Some md -> nd_id md ∈ ids \/ cut <= nd_id md)
  end.
Proof.
  induction fuel as [|fuel IH]; intros r t x s' HR H; cbn [td_next fst snd] in H; destruct (peek t) as [n|] eqn:Ep.
  - discriminate.
  - injection H as <- <-. auto.
  - destruct (nodes r !! n) as [nd|] eqn:Hn; [|discriminate]. pose proof (ri_inv _ _ _ _ HR) as HI. pose proof (ri_t _ _ _ _ HR) as HT. cbn [fst snd] in HI, HT.
    assert (st t n = Frontier) as Hs by (apply peek_frontier; [apply HT|assumption]). destruct (td_visit b r t n HI HT Hs) as [HT' S].
    destruct (RI_visit (TDI b) cut r t (td_mark r n t) ids n nd HR HT' Hn Hs S) as [HR' Hni]. revert H HR'. cased D; intros H HR'.
    + exact (IH r _ x s' HR' H).
    + injection H as <- <-. split; [reflexivity|]. exists nd. split; [assumption|]. assert (nd_id nd < cut) as Hc by lia. split; [assumption|]. split; [auto|]. split; [assumption|].
      intros m md Hu Hm. apply uses_E in Hu as [i Hi]; [|assumption]. destruct HT as [HT HB]. pose proof (all_active _ _ _ (ti_ready _ _ _ _ HT n Hs) i _ Hi) as Ha. cbn in Ha.
      destruct (decide (cut <= nd_id md)) as [|Q]; [now right|left]. apply (ri_behind _ _ _ _ HR m md Hm); [lia|assumption].
  - injection H as <- <-. auto.
Qed.
Lemma td_next_total b cut ids fuel : forall r t, RI (TDI b) cut (r, t) ids -> todo r t <= fuel -> exists x, td_next cut fuel (r, t) = Some x.
Proof.
  induction fuel as [|fuel IH]; intros r t HR Hf; cbn [td_next fst snd]; destruct (peek t) as [n|] eqn:Ep; try (eexists; reflexivity);
    pose proof (ri_inv _ _ _ _ HR) as HI; pose proof (ri_t _ _ _ _ HR) as HT; cbn [fst snd] in HI, HT;
    (assert (st t n = Frontier) as Hs by (apply peek_frontier; [apply HT|assumption])); destruct (td_visit b r t n HI HT Hs) as [HT' S];
    (assert (is_node r n) as Hn by (apply (ti_live _ _ _ _ (proj1 HT) n Hs)));
    pose proof (todo_lt r t (td_mark r n t) n Hn ltac:(congruence) S) as Hlt.
  - lia.
  - destruct Hn as [nd Hn]. rewrite Hn. destruct (RI_visit (TDI b) cut r t (td_mark r n t) ids n nd HR HT' Hn Hs S) as [HR' Hni]. revert HR'. cased D; intros HR'; [|eexists; reflexivity].
    apply IH; [assumption|lia].
Qed.
Lemma td_next_more cut fuel : forall s x fuel', td_next cut fuel s = Some x -> fuel <= fuel' -> td_next cut fuel' s = Some x.
Proof.
  induction fuel as [|fuel IH]; intros s x fuel' H Hf; cbn [td_next] in H.
  - destruct (peek s.2) eqn:E; [discriminate|]. destruct fuel'; cbn [td_next]; now rewrite E.
  - destruct fuel' as [|fuel']; [lia|]. cbn [td_next]. destruct (peek s.2) as [q|] eqn:E; [|assumption]. cbn [fst snd] in *. destruct (nodes s.1 !! q); [|discriminate]. revert H. cased D; intros H; [|assumption].
    apply IH; [assumption|lia].
Qed.
Lemma td_run_RI b (ok : command -> region -> Prop) r0 s ids : built r0 -> (forall c r, b = true -> ok c r -> one_at_a_time c r) -> td_run ok r0 s ids -> RI (TDI b) (next_id r0) s ids.
Proof.
  intros HB Hok HR. pose proof (built_Inv _ HB) as HI0. induction HR as [|c s s' ids HR IH HL Hc HE|fuel s s' n nd ids HR IH HE Hn|fuel s s' ids HR IH HE].
  - destruct (td_init_ok b r0 HI0) as [HT HN]. constructor; try assumption; cbn; [lia|intros id Hid; inversion Hid|constructor|]. intros n nd _ _. split; [intros K; destruct (HN n K)|intros K; inversion K].
  - pose proof (exec_ok td_obs c s (ri_inv _ _ _ _ IH) HL) as HO. destruct HE as [HE|HE]; rewrite HE in HO.
    + destruct (td_exec b c s s' (ri_inv _ _ _ _ IH) HL (ri_t _ _ _ _ IH)) as [K1 K2]; [intros Hb; now apply Hok|assumption|]. now apply (RI_keeps _ _ s).
    + destruct (td_exec_throws b c s s' (ri_inv _ _ _ _ IH) HL (ri_t _ _ _ _ IH) HE) as (K1 & K2 & K3). apply (RI_throws _ _ s); try assumption; [tauto|]. eapply ni_throws; exact HE.
  - destruct s as [r t]. destruct (td_next_ok b _ ids fuel r t (Some n) s' IH HE) as (E & nd' & Hn' & _ & _ & K & _). rewrite E in Hn. assert (nd' = nd) as -> by congruence. exact K.
  - destruct s as [r t]. destruct (td_next_ok b _ ids fuel r t None s' IH HE) as (E & K & _). exact K.
Qed.
Lemma td_done b cut s ids : RI (TDI b) cut s ids -> b = true -> peek s.2 = None -> acyclic s.1 -> forall n nd, nodes s.1 !! n = Some nd -> nd_id nd < cut -> nd_id nd ∈ ids.
Proof.
  intros HR Hb Hp HA n nd Hn Hid. pose proof (ri_inv _ _ _ _ HR) as HI. destruct (ri_t _ _ _ _ HR) as [HT HB]. apply (ri_behind _ _ _ _ HR n nd Hn Hid).
  assert (is_node s.1 n) as Hl by now exists nd. clear nd Hn Hid. pose proof (acyclic_flip _ HI HA n) as Ha. induction Ha as [n _ IH].
  destruct (st s.2 n) eqn:E; [|destruct (peek_none _ (ti_fr _ _ _ _ HT) Hp n E)|reflexivity]. exfalso.
  destruct (some_inactive _ _ _ (ti_ahead _ _ _ _ HT Hb n Hl E)) as (i & m & Hi & Hm). apply Hm, IH.
  - unfold flip. apply uses_E; eauto.
  - eapply td_from_node; [apply HI|exact Hi].
Qed.

(** ** bottom up *)
Definition BU (r : region) (t : tracker) : Prop := TI true (E_bu r) (is_node r) t.
Definition all_old (cut : nat) (r : region) : Prop := forall n nd, nodes r !! n = Some nd -> nd_id nd < cut.
Lemma bu_next_ok cut ids r t x s' : RI BU cut (r, t) ids -> all_old cut r -> bu_next (r, t) = (x, s') ->
  s'.1 = r /\
  match x with
  | None => RI BU cut s' ids /\ peek s'.2 = None
  | Some n => exists nd, nodes r !! n = Some nd /\ nd_id nd ∉ ids /\ RI BU cut s' (ids ++ [nd_id nd]) /\
      (forall m md, uses r m n -> nodes r !! m = Some md -> nd_id md ∈ ids) /\ todo r s'.2 < todo r t
  end.
Proof.
  intros HR HA H. unfold bu_next in H. cbn [fst snd] in H. destruct (peek t) as [n|] eqn:Ep.
  - injection H as <- <-. split; [reflexivity|]. pose proof (ri_inv _ _ _ _ HR) as HI. pose proof (ri_t _ _ _ _ HR) as HT. cbn [fst snd] in HI, HT.
    assert (st t n = Frontier) as Hs by (apply peek_frontier; [apply HT|assumption]). destruct (bu_visit r t n HI HT Hs) as [HT' S].
    pose proof (ti_live _ _ _ _ HT n Hs) as Hl. destruct Hl as [nd Hn]. exists nd. split; [assumption|].
    destruct (RI_visit BU cut r t (bu_mark r n t) ids n nd HR HT' Hn Hs S) as [HR' Hni]. specialize (HA n nd Hn) as Hc. rewrite decide_False in HR' by lia. split; [auto|]. split; [assumption|]. split.
    + intros m md Hu Hm. apply uses_E_bu in Hu as [i Hi]; [|assumption]. pose proof (all_active _ _ _ (ti_ready _ _ _ _ HT n Hs) i _ Hi) as Ha. cbn in Ha.
      apply (ri_behind _ _ _ _ HR m md Hm); [|assumption]. now apply (HA m).
    + apply (todo_lt r t _ n); [now exists nd|congruence|exact S].
  - injection H as <- <-. auto.
Qed.
Lemma bu_run_RI (ok : command -> region -> Prop) r0 s ids : built r0 -> (forall c r, ok c r -> no_creation c r) -> bu_run ok r0 s ids -> RI BU (next_id r0) s ids /\ all_old (next_id r0) s.1.
Proof.
  intros HB Hok HR. pose proof (built_Inv _ HB) as HI0. induction HR as [|c s s' ids HR IH HL Hc HE|s s' n nd ids HR IH HE Hn|s s' ids HR IH HE]; [|destruct IH as [IH IHa]..].
  - destruct (bu_init_ok r0 HI0) as [HT HN]. split; [|intros n nd Hn; exact (proj1 (v_id _ HI0) n nd Hn)].
    constructor; try assumption; cbn; [lia|intros id Hid; inversion Hid|constructor|]. intros n nd _ _. split; [intros K; destruct (HN n K)|intros K; inversion K].
  - pose proof (exec_ok bu_obs c s (ri_inv _ _ _ _ IH) HL) as HO. destruct HE as [HE|HE]; rewrite HE in HO.
    + destruct (bu_exec c s s' (ri_inv _ _ _ _ IH) HL (ri_t _ _ _ _ IH)) as [K1 K2]; [now apply Hok|assumption|]. split; [now apply (RI_keeps _ _ s)|].
      intros n nd Hn. destruct K2 as [_ K2]. destruct (K2 n nd Hn) as (nd0 & Hn0 & E & _); [|rewrite <- E; now apply (IHa n)].
      rewrite <- (ni_ok bu_obs c s s' (Hok _ _ Hc) HE). exact (proj1 (v_id _ HO) n nd Hn).
    + destruct HO as (HI' & HS & Ht). assert (forall n, nd_id <$> nodes s'.1 !! n = nd_id <$> nodes s.1 !! n) as Hid by (intros n; apply shape_id, HS).
      split.
      * apply (RI_throws _ _ s); try assumption; [|eapply ni_throws; exact HE]. rewrite Ht. unfold BU. rewrite (E_bu_same _ _ (same_graph_E _ _ HS)). eapply TI_N; [exact (ri_t _ _ _ _ IH)|]. intros n. symmetry. apply is_node_shape, HS.
      * intros n nd Hn. specialize (Hid n). rewrite Hn in Hid. destruct (nodes s.1 !! n) as [nd0|] eqn:E; [|discriminate]. cbn in Hid. injection Hid as ->. now apply (IHa n).
  - destruct s as [r t]. destruct (bu_next_ok _ ids r t (Some n) s' IH IHa HE) as (E & nd' & Hn' & _ & K & _). rewrite E in Hn. assert (nd' = nd) as -> by congruence. split; [exact K|]. now rewrite E.
  - destruct s as [r t]. destruct (bu_next_ok _ ids r t None s' IH IHa HE) as (E & K & _). split; [exact K|]. now rewrite E.
Qed.
Lemma bu_done cut s ids : RI BU cut s ids -> all_old cut s.1 -> peek s.2 = None -> acyclic s.1 -> forall n nd, nodes s.1 !! n = Some nd -> nd_id nd ∈ ids.
Proof.
  intros HR HO Hp HA n nd Hn. pose proof (ri_inv _ _ _ _ HR) as HI. pose proof (ri_t _ _ _ _ HR) as HT. apply (ri_behind _ _ _ _ HR n nd Hn); [now apply (HO n)|].
  assert (is_node s.1 n) as Hl by now exists nd. clear nd Hn. pose proof (HA n) as Ha. induction Ha as [n _ IH].
  destruct (st s.2 n) eqn:E; [|destruct (peek_none _ (ti_fr _ _ _ _ HT) Hp n E)|reflexivity]. exfalso.
  destruct (some_inactive _ _ _ (ti_ahead _ _ _ _ HT eq_refl n Hl E)) as (i & m & Hi & Hm). apply Hm, IH.
  - apply uses_E_bu; eauto.
  - apply E_bu_some in Hi. eapply td_to_node; [apply HI|exact Hi].
Qed.

(** ** traversals without edits *)
Lemma todo_init r t : (forall m, st t m <> Behind) -> todo r t = size (nodes r).
Proof. intros H. unfold todo. f_equal. apply map_eq. intros i. apply option_eq. intros x. rewrite map_filter_lookup_Some. cbn. split; [tauto|auto]. Qed.
Lemma td_next_todo b cut ids fuel : forall r t x s', RI (TDI b) cut (r, t) ids -> td_next cut fuel (r, t) = Some (x, s') -> (x = None \/ todo r s'.2 < todo r t) /\ todo r s'.2 <= todo r t.
Proof.
  induction fuel as [|fuel IH]; intros r t x s' HR H; cbn [td_next fst snd] in H; destruct (peek t) as [n|] eqn:Ep; try discriminate; try (injection H as <- <-; cbn [snd]; split; [now left|lia]).
  destruct (nodes r !! n) as [nd|] eqn:Hn; [|discriminate]. pose proof (ri_inv _ _ _ _ HR) as HI. pose proof (ri_t _ _ _ _ HR) as HT. cbn [fst snd] in HI, HT.
  assert (st t n = Frontier) as Hs by (apply peek_frontier; [apply HT|assumption]). destruct (td_visit b r t n HI HT Hs) as [HT' S].
  destruct (RI_visit (TDI b) cut r t (td_mark r n t) ids n nd HR HT' Hn Hs S) as [HR' _]. pose proof (todo_lt r t (td_mark r n t) n ltac:(now exists nd) ltac:(congruence) S) as Hlt.
  revert H HR'. cased D; intros H HR'.
  - destruct (IH r _ x s' HR' H) as [[->|K] K']; (split; [|lia]); [now left|right; lia].
  - injection H as <- <-. cbn [snd]. split; [right; exact Hlt|lia].
Qed.
Definition ids_of (r : region) (l : list ptr) (ids : list nat) : Prop := Forall2 (fun n id => exists nd, nodes r !! n = Some nd /\ nd_id nd = id) l ids.
Lemma td_drain cut r fuel : forall t ids, RI (TDI true) cut (r, t) ids -> all_old cut r -> todo r t <= fuel ->
  exists l new t', drain (td_next cut (size (nodes r))) fuel (r, t) = Some l /\ ids_of r l new /\ RI (TDI true) cut (r, t') (ids ++ new) /\ peek t' = None /\
    (forall k n m md, l !! k = Some n -> uses r n m -> nodes r !! m = Some md -> nd_id md ∈ ids \/ exists j, j < k /\ l !! j = Some m).
Proof.
  induction fuel as [|fuel IH]; intros t ids HR HO Hf;
    (destruct (td_next_total true cut ids (size (nodes r)) r t HR (todo_le r t)) as [[x s'] Hx]); cbn [drain]; rewrite Hx;
    destruct (td_next_ok true cut ids _ r t x s' HR Hx) as [E K]; destruct (td_next_todo true cut ids _ r t x s' HR Hx) as [K' _]; destruct s' as [r' t']; cbn [fst snd] in *; subst r'; destruct x as [n|].
  - exfalso. destruct K' as [?|?]; [discriminate|lia].
  - exists [], [], t'. rewrite app_nil_r. split; [reflexivity|]. split; [constructor|]. split; [tauto|]. split; [tauto|]. intros k n m md H. discriminate.
  - destruct K as (nd & Hn & Hc & Hni & HR' & Hu). destruct (IH t' (ids ++ [nd_id nd]) HR' HO) as (l & new & t2 & Hd & Hids & HR2 & Hp & Hord); [destruct K' as [?|?]; [discriminate|lia]|].
    exists (n :: l), (nd_id nd :: new), t2. rewrite Hd. split; [reflexivity|]. split; [constructor; [eauto|assumption]|]. split; [now rewrite <- app_assoc in HR2|]. split; [assumption|].
    intros [|k] n' m md H Hum Hm; cbn in H.
    + injection H as <-. left. destruct (Hu m md Hum Hm) as [?|?]; [assumption|]. specialize (HO m md Hm). lia.
    + destruct (Hord k n' m md H Hum Hm) as [Hin|(j & Hj & Hlj)]; [|right; exists (S j); split; [lia|assumption]]. apply elem_of_app in Hin as [Hin|Hin]; [now left|]. apply elem_of_list_singleton in Hin.
      right. exists 0. split; [lia|]. cbn. f_equal. apply (proj2 (v_id _ (ri_inv _ _ _ _ HR)) n m nd md Hn Hm). congruence.
  - exists [], [], t'. rewrite app_nil_r. split; [reflexivity|]. split; [constructor|]. split; [tauto|]. split; [tauto|]. intros k n m md H. discriminate.
Qed.
Lemma bu_drain cut r fuel : forall t ids, RI BU cut (r, t) ids -> all_old cut r -> todo r t <= fuel ->
  exists l new t', drain (fun s => Some (bu_next s)) fuel (r, t) = Some l /\ ids_of r l new /\ RI BU cut (r, t') (ids ++ new) /\ peek t' = None /\
    (forall k n m md, l !! k = Some n -> uses r m n -> nodes r !! m = Some md -> nd_id md ∈ ids \/ exists j, j < k /\ l !! j = Some m).
Proof.
  induction fuel as [|fuel IH]; intros t ids HR HO Hf; (destruct (bu_next (r, t)) as [x s'] eqn:Hx); cbn [drain]; rewrite Hx;
    destruct (bu_next_ok cut ids r t x s' HR HO Hx) as [E K]; destruct s' as [r' t']; cbn [fst snd] in *; subst r'; destruct x as [n|].
  - exfalso. destruct K as (nd & _ & _ & _ & _ & ?). lia.
  - exists [], [], t'. rewrite app_nil_r. split; [reflexivity|]. split; [constructor|]. split; [tauto|]. split; [tauto|]. intros k n m md H. discriminate.
  - destruct K as (nd & Hn & Hni & HR' & Hu & Hlt). destruct (IH t' (ids ++ [nd_id nd]) HR' HO) as (l & new & t2 & Hd & Hids & HR2 & Hp & Hord); [lia|].
    exists (n :: l), (nd_id nd :: new), t2. rewrite Hd. split; [reflexivity|]. split; [constructor; [eauto|assumption]|]. split; [now rewrite <- app_assoc in HR2|]. split; [assumption|].
    intros [|k] n' m md H Hum Hm; cbn in H.
    + injection H as <-. left. eauto.
    + destruct (Hord k n' m md H Hum Hm) as [Hin|(j & Hj & Hlj)]; [|right; exists (S j); split; [lia|assumption]]. apply elem_of_app in Hin as [Hin|Hin]; [now left|]. apply elem_of_list_singleton in Hin.
      right. exists 0. split; [lia|]. cbn. f_equal. apply (proj2 (v_id _ (ri_inv _ _ _ _ HR)) n m nd md Hn Hm). congruence.
  - exists [], [], t'. rewrite app_nil_r. split; [reflexivity|]. split; [constructor|]. split; [tauto|]. split; [tauto|]. intros k n m md H. discriminate.
Qed.
Lemma ids_of_lookup r l ids k n : ids_of r l ids -> l !! k = Some n -> exists nd, nodes r !! n = Some nd /\ ids !! k = Some (nd_id nd).
Proof. intros H Hk. destruct (Forall2_lookup_l _ _ _ _ _ H Hk) as (id & Hid & nd & Hn & <-). eauto. Qed.
Lemma ids_of_nodup r l ids : ids_of r l ids -> NoDup ids -> NoDup l.
Proof.
  intros H Hnd. apply NoDup_alt. intros i j x Hi Hj. destruct (ids_of_lookup _ _ _ _ _ H Hi) as (nd & Hn & Ei). destruct (ids_of_lookup _ _ _ _ _ H Hj) as (nd' & Hn' & Ej).
  assert (nd' = nd) as -> by congruence. eapply NoDup_lookup; eassumption.
Qed.
Lemma ids_of_iff r l ids : Inv r -> ids_of r l ids -> (forall n nd, nodes r !! n = Some nd -> nd_id nd ∈ ids) -> forall n, n ∈ l <-> is_node r n.
Proof.
  intros HI H HC n. split.
  - intros Hin. apply elem_of_list_lookup in Hin as [k Hk]. destruct (ids_of_lookup _ _ _ _ _ H Hk) as (nd & Hn & _). now exists nd.
  - intros [nd Hn]. specialize (HC n nd Hn). apply elem_of_list_lookup in HC as [k Hk]. destruct (Forall2_lookup_r _ _ _ _ _ H Hk) as (m & Hm & md & Hmd & E).
    rewrite (proj2 (v_id _ HI) n m nd md Hn Hmd ltac:(congruence)). eapply elem_of_list_lookup_2. exact Hm.
Qed.
Lemma uses_nodes r n m : uses r n m -> exists md, nodes r !! m = Some md.
Proof. intros (md & _ & _ & _ & H & _). eauto. Qed.
