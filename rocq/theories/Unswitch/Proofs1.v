(** The loop and its unswitched form compute the same. *)
From stdpp Require Import base list gmap.
From Coq Require Import ZArith Lia.
From Verif.LocalRegion Require Import Model Spec Facts.
From Verif.Unswitch Require Import Model.

Lemma join_cons {A} (x : list A) l : mjoin (x :: l) = x ++ mjoin l.
Proof. done. Qed.
Lemma join_app {A} (l k : list (list A)) : mjoin (l ++ k) = mjoin l ++ mjoin k.
Proof. induction l as [|x l IH]; [done|]. cbn [app]. by rewrite !join_cons, IH, (assoc_L (++)). Qed.
Lemma fold_max_in (l : list nat) x : x ∈ l -> x <= foldr max 0 l.
Proof. induction l as [|y l IH]; intros H; [by apply elem_of_nil in H|]. cbn. apply elem_of_cons in H as [->|H]; [lia|]. specialize (IH H). lia. Qed.
Lemma buckets {A} (f : A -> nat) b : forall l : list A, (forall x, x ∈ l -> f x < b) -> mjoin (map (fun i => filter (fun n => f n = i) l) (seq 0 b)) ≡ₚ l.
Proof.
  assert (Hnil : forall c d, mjoin (map (fun i => filter (fun n : A => f n = i) []) (seq c d)) = []). { intros c d. revert c. induction d as [|d IH]; intros c; [done|]. cbn. by rewrite IH. }
  assert (Hno : forall x l c d, ~ (c <= f x < c + d) -> mjoin (map (fun i => filter (fun n : A => f n = i) (x :: l)) (seq c d)) = mjoin (map (fun i => filter (fun n : A => f n = i) l) (seq c d))).
  { intros x l c d. revert c. induction d as [|d IH]; intros c Hx; [done|]. cbn [seq map]. rewrite !join_cons, IH by lia. rewrite (filter_cons_False (fun n => f n = c)) by lia. done. }
  induction l as [|x l IH]; intros Hb; [by rewrite Hnil|].
  assert (Hx : f x < b) by (apply Hb; by left). pose proof (IH (fun y Hy => Hb y (elem_of_list_further _ _ _ Hy))) as E. transitivity (x :: mjoin (map (fun i => filter (fun n => f n = i) l) (seq 0 b))); [|by rewrite E]. clear E.
  replace b with (f x + S (b - S (f x))) by lia. rewrite seq_app, !map_app, !join_app. rewrite Hno by lia. cbn [seq map]. rewrite !join_cons. rewrite Hno by lia. change (0 + f x) with (f x). rewrite (filter_cons_True (fun n => f n = f x) x l) by done. cbn [app]. symmetry. apply Permutation_middle.
Qed.
Lemma collect_perm l g : collect l g ≡ₚ delete g l.
Proof.
  unfold collect. apply (buckets (depth_of (depths l))). intros n Hn. apply Nat.lt_succ_r. apply fold_max_in. apply elem_of_list_fmap. exists n. split; [done|].
  apply elem_of_list_lookup in Hn as [i Hi]. destruct (decide (i < g)) as [Hlt|Hge].
  - rewrite lookup_delete_lt in Hi by done. by eapply elem_of_list_lookup_2.
  - rewrite lookup_delete_ge in Hi by lia. by eapply elem_of_list_lookup_2.
Qed.
Lemma all_outs_perm l l' : l ≡ₚ l' -> all_outs l ≡ₚ all_outs l'.
Proof. intros H. unfold all_outs. induction H as [|x l l' H IH|x y l|l1 l2 l3 H1 IH1 H2 IH2]; [done| | |by rewrite IH1]; cbn. - by rewrite IH. - by rewrite !(assoc_L (++)), (comm (++) (nouts y)). Qed.

Lemma map_nth_seq (l : list val) b : map (fun x => nth (x - b) l (VAny 0)) (seq b (length l)) = l.
Proof.
  apply list_eq_same_length with (length l); [done | by rewrite map_length, seq_length|]. intros i x y Hi Hx Hy. change (map ?f ?m) with (f <$> m) in Hx. apply list_lookup_fmap_inv in Hx as (z & -> & Hz). apply lookup_seq in Hz as [-> _].
  replace (b + i - b) with i by lia. by rewrite (nth_lookup_Some _ _ _ _ Hy).
Qed.

Section Loop.
  Context (other : nat -> list val -> option (list val)) (content : val -> val).
  Local Notation holds := (holds other content).
  Local Notation hold := (hold other content).
  Local Notation runs := (runs other content).
  Local Notation loops := (loops other content).
  Local Notation eval := (eval other content).
  Lemma hold_perm rho l l' : l ≡ₚ l' -> hold rho l <-> hold rho l'.
  Proof. intros H. unfold Spec.hold. by setoid_rewrite H. Qed.

  Context (pre : list nat) (nodes : list node) (p : nat) (posts : list nat) (g : nat) (xe xr : region) (es gouts : list nat).
  Let body := Region pre nodes (p :: posts).
  Context (Hg : nodes !! g = Some (Node (KGamma [xe; xr]) (p :: es) gouts)) (Hnames : NoDup (names body)).
  Let preds := collect nodes g.
  Lemma nodes_perm : nodes ≡ₚ Node (KGamma [xe; xr]) (p :: es) gouts :: preds.
  Proof using Hg. unfold preds. rewrite collect_perm. by apply delete_Permutation. Qed.
  Lemma names_perm : NoDup (pre ++ all_outs preds) /\ NoDup gouts /\ forall x, x ∈ pre ++ all_outs preds -> x ∉ gouts.
  Proof using Hg Hnames.
    unfold names, body in Hnames. cbn [rargs rnodes] in Hnames. rewrite (all_outs_perm _ _ nodes_perm), all_outs_cons in Hnames. cbn [nouts] in Hnames. rewrite (assoc_L (++)), (comm (++) pre gouts), <-(assoc_L (++)) in Hnames.
    apply NoDup_app in Hnames as (H1 & H2 & H3). split; [done|]. split; [done|]. intros x Hx Hg'. by apply (H2 x).
  Qed.
  Definition PV (vs : list val) (pv : val) (evs : list val) : Prop := exists rho, map rho pre = vs /\ hold rho preds /\ rho p = pv /\ map rho es = evs.
  Definition sel (go ws : list val) : Prop := exists rho : nat -> val, map rho gouts = go /\ map rho posts = ws.
  (** what the predicate nodes use *)
  Context (Huses : forall n x, n ∈ preds -> x ∈ nins n -> x ∈ pre ++ all_outs preds) (Hp : p ∈ pre ++ all_outs preds) (Hes : forall x, x ∈ es -> x ∈ pre ++ all_outs preds) (Hposts : forall x, x ∈ posts -> x ∈ gouts).
  Lemma body_iff k vs ws : runs body vs (VCtl k :: ws) <-> exists evs x go, PV vs (VCtl k) evs /\ [xe; xr] !! k = Some x /\ runs x (content (VCtl k) :: evs) go /\ sel go ws.
  Proof using Hg Hnames Huses Hp Hes Hposts.
    rewrite runs_iff. unfold body. cbn [rargs rnodes rres]. split.
    - intros (rho & <- & Hh & Hr). cbn [map] in Hr. injection Hr as Hr1 Hr2. rewrite (hold_perm _ _ _ nodes_perm), hold_cons in Hh. destruct Hh as [H1 H2]. unfold Spec.holds in H1. cbn [nkind nins nouts map] in H1. rewrite Hr1 in H1.
      inversion H1 as [|subs k' x vs' go Hx Hrun E1 E2 E3|]; subst. exists (map rho es), x, (map rho gouts). split; [by exists rho|]. split; [done|]. split; [done|]. by exists rho.
    - intros (evs & x & go & (rho1 & E1 & H1 & E2 & E3) & Hx & Hrun & (rho2 & E4 & E5)). destruct names_perm as (_ & _ & Hd).
      set (rho := fun y => if decide (y ∈ gouts) then rho2 y else rho1 y). assert (R1 : forall y, y ∈ pre ++ all_outs preds -> rho y = rho1 y). { intros y Hy. unfold rho. rewrite decide_False; [done|]. by apply Hd. }
      assert (R2 : forall y, y ∈ gouts -> rho y = rho2 y). { intros y Hy. unfold rho. by rewrite decide_True. }
      assert (M1 : forall l, (forall y, y ∈ l -> y ∈ pre ++ all_outs preds) -> map rho l = map rho1 l). { intros l Hl. apply map_ext_in. intros y Hy%elem_of_list_In. auto. }
      assert (M2 : forall l, (forall y, y ∈ l -> y ∈ gouts) -> map rho l = map rho2 l). { intros l Hl. apply map_ext_in. intros y Hy%elem_of_list_In. auto. }
      exists rho. split; [|split].
      + rewrite M1; [done|]. intros y Hy. apply elem_of_app. by left.
      + rewrite (hold_perm _ _ _ nodes_perm), hold_cons. split.
        * unfold Spec.holds. cbn [nkind nins nouts map]. rewrite (R1 p Hp), E2, (M1 es Hes), E3, (M2 gouts (fun _ H => H)), E4. by econstructor.
        * eapply hold_ext; [|exact H1]. intros n y Hn Hy. symmetry. apply R1. apply elem_of_app in Hy as [Hy|Hy]; [by eapply Huses|]. apply elem_of_app. right. apply elem_all_outs. by exists n.
      + cbn [map]. by rewrite (R1 p Hp), E2, (M2 posts Hposts), E5.
  Qed.

  (** the new loop body *)
  Context (R P2 : list node) (s3 s4 : gmap nat nat) (n3 n4 : nat) (picks es4 : list nat) (pt : nat).
  Let k := length es.
  Context (Hxr : NoDup (names xr)) (Hxa : length (rargs xr) = S k) (Hxo : length (rres xr) = length gouts) (Hlp : length posts = length pre).
  Context (HR : copy_nodes (rnodes xr) (insert_all (tail (rargs xr)) (seq 0 k) ∅) k = Some (R, s3, n3)).
  Context (Hpicks : mapM (fun x => y ← pick gouts (rres xr) x; s3 !! y) posts = Some picks).
  Context (HP2 : copy_nodes preds (insert_all pre picks ∅) n3 = Some (P2, s4, n4)) (Hpt : s4 !! p = Some pt) (Hes4 : mapM (fun x => s4 !! x) es = Some es4).
  Let body' := Region (seq 0 k) (R ++ P2) (pt :: es4).

  Lemma pick_ok (gs rs : list nat) x y : NoDup gs -> pick gs rs x = Some y <-> exists i, gs !! i = Some x /\ rs !! i = Some y.
  Proof.
    intros Hn. unfold pick. split.
    - destruct (list_find _ gs) as [[i z]|] eqn:E; [|done]. cbn [mbind option_bind]. intros H. apply list_find_Some in E as (E1 & -> & _). by exists i.
    - intros (i & Hi & Hy). assert (E : list_find (fun z => z = x) gs = Some (i, x)); [|by rewrite E].
      apply list_find_Some. split; [done|]. split; [done|]. intros j z Hj Hlt ->. pose proof (NoDup_lookup _ _ _ _ Hn Hi Hj). lia.
  Qed.
  (** the values of the gamma node's outputs, given those of the subregion's results *)
  Lemma picks_sel (res : list nat) (s : gmap nat nat) (rho' : nat -> val) (d : nat -> val) l : NoDup gouts -> length res = length gouts -> mapM (fun x => y ← pick gouts res x; s !! y) posts = Some l ->
    sel (map (pull s rho' d) res) (map rho' l).
  Proof.
    intros Hn Hl Hm. set (rs := fun x => match pick gouts res x with Some y => pull s rho' d y | None => VAny 0 end). exists rs. split.
    - apply list_eq_same_length with (length res); [by rewrite map_length | by rewrite map_length|]. intros i u v Hi Hu Hv. change (map rs gouts) with (rs <$> gouts) in Hu. change (map (pull s rho' d) res) with (pull s rho' d <$> res) in Hv.
      apply list_lookup_fmap_inv in Hu as (x & -> & Hx). apply list_lookup_fmap_inv in Hv as (y & -> & Hy). unfold rs. rewrite (proj2 (pick_ok gouts res x y Hn)); [done|]. by exists i.
    - apply mapM_Some in Hm. revert Hm. generalize posts as q. intros q Hm. induction Hm as [|x y l' k' Hx Hm IH]; [done|]. cbn [map]. rewrite IH. f_equal. unfold rs. destruct (pick gouts res x) as [z|] eqn:Ez; [|done]. cbn [mbind option_bind] in Hx. by apply pull_agree.
  Qed.
  Lemma sel_picks (res : list nat) (s : gmap nat nat) (rho rho' : nat -> val) l ws : NoDup gouts -> length res = length gouts -> mapM (fun x => y ← pick gouts res x; s !! y) posts = Some l ->
    (forall x y, s !! x = Some y -> rho x = rho' y) -> sel (map rho res) ws -> map rho' l = ws.
  Proof.
    intros Hn Hl Hm Ha (rs & E1 & <-). apply mapM_Some in Hm. revert Hm. generalize posts as q. intros q Hm. induction Hm as [|x y l' k' Hx Hm IH]; [done|]. cbn [map]. rewrite IH. f_equal. destruct (pick gouts res x) as [z|] eqn:Ez; [|done]. cbn [mbind option_bind] in Hx.
    apply pick_ok in Ez as (i & Hi & Hz); [|done]. rewrite <-(Ha _ _ Hx). assert (E : map rs gouts !! i = map rho res !! i) by (by rewrite E1). change (map rs gouts) with (rs <$> gouts) in E. change (map rho res) with (rho <$> res) in E. rewrite !list_lookup_fmap, Hi, Hz in E. cbn in E. congruence.
  Qed.
  Lemma sub_args x : length (rargs x) = S k -> NoDup (names x) -> exists a l, rargs x = a :: l /\ length l = k /\ NoDup (l ++ all_outs (rnodes x)) /\ a ∉ l ++ all_outs (rnodes x).
  Proof. intros Hl Hn. unfold names in Hn. destruct (rargs x) as [|a l]; [done|]. exists a, l. split; [done|]. cbn in Hl. split; [lia|]. cbn [app] in Hn. apply NoDup_cons in Hn as [H1 H2]. done. Qed.
  (** a copy of a subregion of the gamma node *)
  Lemma sub_fwd x b l' s n1 c evs go rho0 : length (rargs x) = S k -> NoDup (names x) -> copy_nodes (rnodes x) (insert_all (tail (rargs x)) (seq b k) ∅) (b + k) = Some (l', s, n1) -> map rho0 (seq b k) = evs -> runs x (c :: evs) go ->
    exists rho rho', (forall y, y < b + k \/ n1 <= y -> rho' y = rho0 y) /\ hold rho' l' /\ (forall x y, s !! x = Some y -> rho x = rho' y) /\ map rho (rres x) = go.
  Proof.
    intros Hl Hn Hc E Hr. destruct (sub_args x Hl Hn) as (a & l & Ea & Hll & Hnl & Hal). rewrite Ea in Hc. cbn [tail] in Hc. apply runs_iff in Hr as (rho & Er & Hh & Eg). rewrite Ea in Er. cbn [map] in Er. injection Er as Er1 Er2.
    destruct (copy_fwd other content _ _ _ _ _ _ _ Hc Hnl ltac:(by rewrite seq_length) rho rho0) as (rho' & A1 & A2 & A3); [intros y Hy; apply elem_of_seq in Hy; lia | by rewrite Er2, E | done|].
    by exists rho, rho'.
  Qed.
  Lemma sub_bwd x b l' s n1 c rho' : length (rargs x) = S k -> NoDup (names x) -> copy_nodes (rnodes x) (insert_all (tail (rargs x)) (seq b k) ∅) (b + k) = Some (l', s, n1) -> hold rho' l' ->
    runs x (c :: map rho' (seq b k)) (map (pull s rho' (fun _ => c)) (rres x)).
  Proof.
    intros Hl Hn Hc Hh. destruct (sub_args x Hl Hn) as (a & l & Ea & Hll & Hnl & Hal). rewrite Ea in Hc. cbn [tail] in Hc.
    destruct (copy_bwd other content _ _ _ _ _ _ _ Hc Hnl ltac:(by rewrite seq_length) rho' (fun _ => c) Hh) as [B1 B2].
    apply runs_iff. eexists. split; [|split; [exact B1 | reflexivity]]. rewrite Ea. cbn [map]. rewrite B2. f_equal. unfold pull. destruct (s !! a) as [y|] eqn:Ey; [|done]. exfalso. apply Hal. eapply copy_dom; [exact Hc | done | by rewrite seq_length|]. by exists y.
  Qed.
  Lemma picks_low : forall y, y ∈ picks -> y < n3.
  Proof using Hpicks HR Hxr Hxa Hxo Hlp.
    intros y Hy. apply mapM_Some in Hpicks. apply elem_of_list_lookup in Hy as [i Hi]. destruct (Forall2_lookup_r _ _ _ _ _ Hpicks Hi) as (x & _ & Hx). destruct (pick gouts (rres xr) x) as [z|]; [|done]. cbn [mbind option_bind] in Hx.
    destruct (sub_args xr Hxa Hxr) as (a & l & Ea & Hll & Hnl & Hal). pose proof HR as HR0. rewrite Ea in HR0. cbn [tail] in HR0.
    destruct (copy_low _ _ _ _ _ _ _ HR0 Hnl ltac:(by rewrite seq_length)) as (_ & H & _); [intros w Hw; apply elem_of_seq in Hw; lia|]. by eapply H.
  Qed.
  Lemma picks_length : length picks = length pre.
  Proof using Hpicks Hlp. apply mapM_Some in Hpicks. by rewrite <-(Forall2_length _ _ _ Hpicks). Qed.
  Lemma body'_iff c evs pv' evs' : runs body' evs (pv' :: evs') <-> length evs = k /\ exists go vs', runs xr (c :: evs) go /\ sel go vs' /\ PV vs' pv' evs'.
  Proof using Hg Hnames Huses Hp Hes Hposts Hxr Hxa Hxo Hlp HR Hpicks HP2 Hpt Hes4.
    destruct names_perm as (Hn1 & Hn2 & Hd). pose proof picks_length as Lp. apply mapM_maps in Hes4. rewrite runs_iff. unfold body'. cbn [rargs rnodes rres]. split.
    - intros (rho' & <- & Hh & E). cbn [map] in E. injection E as <- <-. apply hold_app in Hh as [Hh1 Hh2]. split; [by rewrite map_length, seq_length|]. exists (map (pull s3 rho' (fun _ => c)) (rres xr)), (map rho' picks). split; [|split].
      + by apply (sub_bwd xr 0 R s3 n3).
      + by apply picks_sel.
      + destruct (copy_bwd other content _ _ _ _ _ _ _ HP2 Hn1 ltac:(by rewrite Lp) rho' rho' Hh2) as [B1 B2]. exists (pull s4 rho' rho'). split; [done|]. split; [done|]. split; [by apply pull_agree|]. eapply maps_agree; [|exact Hes4]. intros x y. apply pull_agree.
    - intros (Hk & go & vs' & Hr & Hs & (rho2 & E1 & H2 & E2 & E3)).
      destruct (sub_fwd xr 0 R s3 n3 c evs go (fun x => nth (x - 0) evs (VAny 0)) Hxa Hxr HR) as (rho1 & rho1' & A1 & A2 & A3 & A4); [rewrite <-Hk; apply map_nth_seq | done|].
      assert (Ep : map rho1' picks = vs'). { eapply sel_picks; [done | exact Hxo | exact Hpicks | exact A3|]. by rewrite A4. }
      destruct (copy_fwd other content _ _ _ _ _ _ _ HP2 Hn1 ltac:(by rewrite Lp) rho2 rho1' picks_low) as (rho3 & B1 & B2 & B3); [by rewrite Ep | done|].
      assert (Hlow : k <= n3 /\ forall n y, n ∈ R -> y ∈ nins n ++ nouts n -> y < n3).
      { destruct (sub_args xr Hxa Hxr) as (a & l & Ea & Hll & Hnl & Hal). pose proof HR as HR0. rewrite Ea in HR0. cbn [tail] in HR0.
        destruct (copy_low _ _ _ _ _ _ _ HR0 Hnl ltac:(by rewrite seq_length)) as (Hle & _ & H); [intros w Hw; apply elem_of_seq in Hw; lia|]. done. }
      destruct Hlow as [Hle Hlow]. exists rho3. split; [|split].
      + rewrite <-Hk. etransitivity; [|exact (map_nth_seq evs 0)]. apply map_ext_in. intros y Hy%elem_of_list_In. apply elem_of_seq in Hy. rewrite B1 by lia. apply A1. lia.
      + apply hold_app. split; [|done]. eapply hold_ext; [|exact A2]. intros n y Hn Hy. symmetry. apply B1. left. by eapply Hlow.
      + cbn [map]. rewrite <-(B3 _ _ Hpt), E2. f_equal. rewrite <-E3. symmetry. by eapply maps_agree.
  Qed.
  Lemma body'_length evs pv' us : runs body' evs (pv' :: us) -> length us = k.
  Proof using Hes4. rewrite runs_iff. intros (rho & _ & _ & E). unfold body' in E. cbn [rres map] in E. injection E as _ <-. rewrite map_length. apply mapM_Some in Hes4. by rewrite <-(Forall2_length _ _ _ Hes4). Qed.
  Lemma PV_length vs pv evs : PV vs pv evs -> length evs = k.
  Proof. intros (rho & _ & _ & _ & <-). by rewrite map_length. Qed.
  (** the loop against: predicate nodes, then nothing or the new loop, then the exit subregion *)
  Lemma loop_iff vs ws : loops body vs ws <-> exists pv evs us go, PV vs pv evs /\ ((pv = VCtl 0 /\ us = evs) \/ (pv = VCtl 1 /\ loops body' evs us)) /\ runs xe (content (VCtl 0) :: us) go /\ sel go ws.
  Proof using Hg Hnames Huses Hp Hes Hposts Hxr Hxa Hxo Hlp HR Hpicks HP2 Hpt Hes4.
    split.
    - intros H. remember body as b eqn:Eb. induction H as [b vs ws Hr|b vs us ws Hr Hl IH]; subst b.
      + apply body_iff in Hr as (evs & x & go & H1 & Hx & H2 & H3). cbn in Hx. injection Hx as <-. exists (VCtl 0), evs, evs, go. split; [done|]. split; [by left|]. by split.
      + apply body_iff in Hr as (evs & x & go & H1 & Hx & H2 & H3). cbn in Hx. injection Hx as <-. destruct (IH eq_refl Hnames) as (pv' & evs' & us' & go' & P & Hm & Hx & Hs).
        assert (Hb : runs body' evs (pv' :: evs')). { apply (body'_iff (content (VCtl 1))). split; [by eapply PV_length|]. exists go, us. by split. }
        exists (VCtl 1), evs, us', go'. split; [done|]. split; [|by split]. right. split; [done|]. destruct Hm as [[-> ->]|[-> Hm]]; [by apply l_exit | by eapply l_again].
    - intros (pv & evs & us & go & P & Hm & Hx & Hs). destruct Hm as [[-> ->]|[-> Hm]].
      + apply l_exit. apply body_iff. by exists evs, xe, go.
      + remember body' as b eqn:Eb. revert vs P. induction Hm as [b evs us Hr|b evs us' us Hr Hl IH]; subst b; intros vs P.
        * apply (body'_iff (content (VCtl 1))) in Hr as (_ & go' & vs' & R1 & R2 & R3). apply l_again with vs'; [apply body_iff; by exists evs, xr, go'|]. apply l_exit. apply body_iff. by exists us, xe, go.
        * apply (body'_iff (content (VCtl 1))) in Hr as (_ & go' & vs' & R1 & R2 & R3). apply l_again with vs'; [apply body_iff; by exists evs, xr, go'|]. by apply IH.
  Qed.
  Lemma loop'_length evs us : loops body' evs us -> length us = k.
  Proof using Hes4. intros H. remember body' as b eqn:Eb. induction H as [b vs ws Hr|b vs us ws Hr Hl IH]; subst b; [by eapply body'_length | by apply IH]. Qed.
  (** the new gamma node *)
  Let exit := Region (seq 0 (S k)) [] (seq 1 k).
  Let rep := Region (seq 0 (S k)) [Node (KTheta body') (seq 1 k) (seq (S k) k)] (seq (S k) k).
  Lemma gamma_iff pv evs us : length evs = k -> eval (KGamma [exit; rep]) (pv :: evs) us <-> (pv = VCtl 0 /\ us = evs) \/ (pv = VCtl 1 /\ loops body' evs us).
  Proof using Hes4 Hlp Hxa Hxo.
    intros Hl. split.
    - intros H. inversion H as [|subs i x vs' go Hx Hrun E1 E2 E3|]; subst. destruct i as [|[|i]]; cbn in Hx; [| |done]; injection Hx as <-; apply runs_iff in Hrun as (rho & E & Hh & <-).
      + left. split; [done|]. cbn in E. by injection E as _ E.
      + right. split; [done|]. unfold rep in E, Hh |- *. cbn [rargs rnodes rres] in E, Hh |- *. cbn [seq map] in E. injection E as _ E. specialize (Hh _ (elem_of_list_here _ _)). unfold Spec.holds in Hh. cbn [nkind nins nouts] in Hh. rewrite E in Hh. by inversion Hh.
    - intros [[-> ->]|[-> Hloop]].
      + apply (e_gamma _ _ [exit; rep] 0 exit); [done|]. apply runs_iff. exists (fun x => nth (x - 0) (content (VCtl 0) :: evs) (VAny 0)). unfold exit. cbn [rargs rnodes rres].
        pose proof (map_nth_seq (content (VCtl 0) :: evs) 0) as E. cbn [length] in E. rewrite Hl in E. split; [done|]. split; [by intros n Hn%elem_of_nil|]. cbn [seq map] in E. by injection E.
      + pose proof (loop'_length _ _ Hloop) as Hu. apply (e_gamma _ _ [exit; rep] 1 rep); [done|]. apply runs_iff. set (rho := fun x => nth (x - 0) (content (VCtl 1) :: evs ++ us) (VAny 0)). exists rho.
        assert (E : map rho (seq 0 (S (k + k))) = content (VCtl 1) :: evs ++ us). { pose proof (map_nth_seq (content (VCtl 1) :: evs ++ us) 0) as E. cbn [length] in E. rewrite app_length, Hl, Hu in E. exact E. }
        change (rho 0 :: map rho (seq 1 (k + k)) = content (VCtl 1) :: evs ++ us) in E. injection E as E. rewrite seq_app, map_app in E. apply app_inj_1 in E as [E1 E2]; [|by rewrite map_length, seq_length].
        unfold rep. cbn [rargs rnodes rres]. split; [change (rho 0 :: map rho (seq 1 k) = content (VCtl 1) :: evs); by rewrite E1|]. split.
        * intros n Hn%elem_of_list_singleton. subst n. unfold Spec.holds. cbn [nkind nins nouts]. rewrite E1. replace (S k) with (1 + k) by lia. rewrite E2. by constructor.
        * replace (S k) with (1 + k) by lia. exact E2.
  Qed.
End Loop.
