(** Copies of nodes and renamings. *)
From stdpp Require Import base list gmap.
From Coq Require Import ZArith Lia.
From Verif.LocalRegion Require Import Model Spec.

Lemma all_outs_cons n l : all_outs (n :: l) = nouts n ++ all_outs l.
Proof. done. Qed.
Lemma all_outs_app l1 l2 : all_outs (l1 ++ l2) = all_outs l1 ++ all_outs l2.
Proof. induction l1 as [|n l1 IH]; [done|]. cbn [app]. by rewrite !all_outs_cons, IH, (assoc_L (++)). Qed.
Lemma elem_all_outs x l : x ∈ all_outs l <-> exists n, n ∈ l /\ x ∈ nouts n.
Proof.
  induction l as [|n l IH]; [split; [by intros ?%elem_of_nil | by intros (n & ?%elem_of_nil & _)]|]. rewrite all_outs_cons, elem_of_app, IH. split.
  - intros [H|(m & H1 & H2)]; [exists n; split; [by left | done] | exists m; split; [by right | done]].
  - intros (m & [->|H1]%elem_of_cons & H2); [by left | right; by exists m].
Qed.
Lemma insert_all_nil news s : insert_all [] news s = s.
Proof. done. Qed.
Lemma insert_all_cons x y l k s : insert_all (x :: l) (y :: k) s = insert_all l k (<[x := y]> s).
Proof. done. Qed.
Lemma insert_all_out l : forall k s x, x ∉ l -> insert_all l k s !! x = s !! x.
Proof.
  induction l as [|y l IH]; intros k s x Hx; [done|]. apply not_elem_of_cons in Hx as [Hx1 Hx2]. destruct k as [|z k]; [done|]. rewrite insert_all_cons, IH by done. by rewrite lookup_insert_ne.
Qed.
Lemma insert_all_in l : forall k s i x y, NoDup l -> l !! i = Some x -> k !! i = Some y -> insert_all l k s !! x = Some y.
Proof.
  induction l as [|z l IH]; intros k s i x y Hn Hi Hk; [done|]. apply NoDup_cons in Hn as [Hz Hn]. destruct k as [|u k]; [done|]. rewrite insert_all_cons. destruct i as [|i]; cbn in Hi, Hk.
  - injection Hi as ->. injection Hk as ->. rewrite insert_all_out by done. by rewrite lookup_insert.
  - by eapply IH.
Qed.
Lemma insert_all_inv l : forall k s x y, length l = length k -> NoDup l -> insert_all l k s !! x = Some y -> (exists i, l !! i = Some x /\ k !! i = Some y) \/ (x ∉ l /\ s !! x = Some y).
Proof.
  intros k s x y Hl Hn H. destruct (decide (x ∈ l)) as [Hin|Hout]; [|right; by rewrite insert_all_out in H]. left. apply elem_of_list_lookup in Hin as [i Hi].
  destruct (lookup_lt_is_Some_2 k i) as [z Hz]; [rewrite <-Hl; by eapply lookup_lt_Some|]. exists i. rewrite (insert_all_in _ _ _ _ _ _ Hn Hi Hz) in H. by injection H as ->.
Qed.

(** n' is n with the names substituted *)
Definition maps (s : gmap nat nat) (l l' : list nat) : Prop := Forall2 (fun x y => s !! x = Some y) l l'.
Definition copied (s : gmap nat nat) (n n' : node) : Prop := nkind n' = nkind n /\ maps s (nins n) (nins n') /\ maps s (nouts n) (nouts n').
Lemma mapM_maps (s : gmap nat nat) l l' : mapM (fun x => s !! x) l = Some l' <-> maps s l l'.
Proof. apply mapM_Some. Qed.
Lemma maps_mono (s s' : gmap nat nat) l l' : (forall x y, s !! x = Some y -> s' !! x = Some y) -> maps s l l' -> maps s' l l'.
Proof. intros H HF. unfold maps in *. eapply Forall2_impl; [exact HF|]. cbn. auto. Qed.
Lemma maps_agree (s : gmap nat nat) (rho rho' : nat -> val) l l' : (forall x y, s !! x = Some y -> rho x = rho' y) -> maps s l l' -> map rho l = map rho' l'.
Proof. intros H. induction 1 as [|x y l l' Hx Hl IH]; cbn; [done|]. by rewrite IH, (H x y Hx). Qed.
Lemma copy_nodes_ok l : forall s next l' s' next', copy_nodes l s next = Some (l', s', next') -> NoDup (all_outs l) -> (forall x, x ∈ all_outs l -> s !! x = None) ->
  next' = next + length (all_outs l) /\ (forall i x, all_outs l !! i = Some x -> s' !! x = Some (next + i)) /\ (forall x, x ∉ all_outs l -> s' !! x = s !! x) /\ Forall2 (copied s') l l' /\ all_outs l' = seq next (length (all_outs l)).
Proof.
  induction l as [|n l IH]; intros s next l' s' next'; cbn [copy_nodes].
  - intros [= <- <- <-] _ _. cbn. split; [lia|]. split; [done|]. split; [done|]. by split.
  - unfold copy_node. destruct (mapM (fun x => s !! x) (nins n)) as [ins|] eqn:Ei; [|done]. cbn [mbind option_bind]. destruct (copy_nodes l _ _) as [[[l1 s1] next1]|] eqn:Ec; [|done]. cbn [mbind option_bind]. intros [= <- <- <-] Hn Hs.
    rewrite all_outs_cons in Hn, Hs |- *. apply NoDup_app in Hn as (Hn1 & Hd & Hn2). set (s0 := insert_all (nouts n) (seq next (length (nouts n))) s) in *.
    assert (Hs0 : forall x, x ∈ all_outs l -> s0 !! x = None). { intros x Hx. unfold s0. rewrite insert_all_out; [apply Hs, elem_of_app; by right|]. intros Hc. exact (Hd x Hc Hx). }
    destruct (IH _ _ _ _ _ Ec Hn2 Hs0) as (E1 & E2 & E3 & E4 & E5).
    assert (Hin : forall i x, nouts n !! i = Some x -> s1 !! x = Some (next + i)).
    { intros i x Hi. assert (Hx : x ∈ nouts n) by (by eapply elem_of_list_lookup_2). rewrite E3 by (intros Hc; exact (Hd x Hx Hc)). unfold s0. apply (insert_all_in _ _ _ i); [done | done|]. apply lookup_seq. split; [done|]. by eapply lookup_lt_Some. }
    rewrite app_length. split; [lia|]. split; [|split; [|split]].
    + intros i x Hi. apply lookup_app_Some in Hi as [Hi|[Hle Hi]]; [by apply Hin|]. rewrite (E2 _ _ Hi). f_equal. lia.
    + intros x Hx. rewrite elem_of_app in Hx. rewrite E3 by tauto. unfold s0. apply insert_all_out. tauto.
    + constructor; [|exact E4]. split; [done|]. cbn [nins nouts nkind]. split.
      * apply mapM_maps in Ei. eapply maps_mono; [|exact Ei]. intros x y Hx.
        assert (Hno : x ∉ nouts n ++ all_outs l) by (intros Hc; by rewrite (Hs x Hc) in Hx). rewrite elem_of_app in Hno. rewrite E3 by tauto. unfold s0. rewrite insert_all_out by tauto. done.
      * apply Forall2_same_length_lookup. split; [by rewrite seq_length|]. intros i x y Hi Hy. apply lookup_seq in Hy as [-> _]. by apply Hin.
    + cbn [nouts]. rewrite all_outs_cons. cbn [nouts]. rewrite E5. by rewrite seq_app.
Qed.
Section Sem.
  Context (other : nat -> list val -> option (list val)) (content : val -> val).
  Local Notation holds := (holds other content).
  Local Notation hold := (hold other content).
  Lemma copied_holds s rho rho' n n' : (forall x y, s !! x = Some y -> rho x = rho' y) -> copied s n n' -> holds rho n <-> holds rho' n'.
  Proof. intros H (E & H1 & H2). unfold Spec.holds. by rewrite E, (maps_agree s rho rho' _ _ H H1), (maps_agree s rho rho' _ _ H H2). Qed.
  Lemma copied_hold s rho rho' l l' : (forall x y, s !! x = Some y -> rho x = rho' y) -> Forall2 (copied s) l l' -> hold rho l <-> hold rho' l'.
  Proof.
    intros H HF. unfold Spec.hold. split; intros Hh n Hn; apply elem_of_list_lookup in Hn as [i Hi].
    - destruct (Forall2_lookup_r _ _ _ _ _ HF Hi) as (m & Hm & Hc). apply (copied_holds _ _ _ _ _ H Hc). apply Hh. by eapply elem_of_list_lookup_2.
    - destruct (Forall2_lookup_l _ _ _ _ _ HF Hi) as (m & Hm & Hc). apply (copied_holds _ _ _ _ _ H Hc). apply Hh. by eapply elem_of_list_lookup_2.
  Qed.
  Lemma hold_app rho l1 l2 : hold rho (l1 ++ l2) <-> hold rho l1 /\ hold rho l2.
  Proof. unfold Spec.hold. setoid_rewrite elem_of_app. firstorder. Qed.
  Lemma hold_cons rho n l : hold rho (n :: l) <-> holds rho n /\ hold rho l.
  Proof.
    unfold Spec.hold. split.
    - intros H. split; [apply H; by left | intros m Hm; apply H; by right].
    - intros [H1 H2] m [->|Hm]%elem_of_cons; [done | by apply H2].
  Qed.
  Lemma holds_ext rho rho' n : (forall x, x ∈ nins n -> rho x = rho' x) -> (forall x, x ∈ nouts n -> rho x = rho' x) -> holds rho n -> holds rho' n.
  Proof.
    intros H1 H2. unfold Spec.holds. replace (map rho' (nins n)) with (map rho (nins n)); [replace (map rho' (nouts n)) with (map rho (nouts n)); [done|]|]; apply map_ext_in; intros x Hx%elem_of_list_In; auto.
  Qed.
  (** the values of the copies *)
  Definition spread (l : list node) (rho rho0 : nat -> val) (next x : nat) : val := if decide (next <= x < next + length (all_outs l)) then rho (nth (x - next) (all_outs l) 0) else rho0 x.
  Lemma spread_old l rho rho0 next x : x < next -> spread l rho rho0 next x = rho0 x.
  Proof. intros H. unfold spread. rewrite decide_False by lia. done. Qed.
  Lemma spread_new l rho rho0 next x : next + length (all_outs l) <= x -> spread l rho rho0 next x = rho0 x.
  Proof. intros H. unfold spread. rewrite decide_False by lia. done. Qed.
  Lemma spread_agree l s next l' s' next' rho rho0 : copy_nodes l s next = Some (l', s', next') -> NoDup (all_outs l) -> (forall x, x ∈ all_outs l -> s !! x = None) ->
    (forall x y, s !! x = Some y -> y < next /\ rho x = rho0 y) -> forall x y, s' !! x = Some y -> rho x = spread l rho rho0 next y.
  Proof.
    intros Hc Hn Hs Ha x y Hx. destruct (copy_nodes_ok _ _ _ _ _ _ Hc Hn Hs) as (E1 & E2 & E3 & E4 & E5). destruct (decide (x ∈ all_outs l)) as [Hin|Hout].
    - apply elem_of_list_lookup in Hin as [i Hi]. rewrite (E2 _ _ Hi) in Hx. injection Hx as <-. unfold spread. pose proof (lookup_lt_Some _ _ _ Hi). rewrite decide_True by lia. replace (next + i - next) with i by lia. by rewrite (nth_lookup_Some _ _ _ _ Hi).
    - rewrite E3 in Hx by done. destruct (Ha _ _ Hx) as [Hlt ->]. by rewrite spread_old.
  Qed.
End Sem.
(** values for old names from values for new ones *)
Definition pull (s : gmap nat nat) (rho' d : nat -> val) (x : nat) : val := match s !! x with Some y => rho' y | None => d x end.
Lemma pull_agree s rho' d x y : s !! x = Some y -> pull s rho' d x = rho' y.
Proof. unfold pull. by intros ->. Qed.

Lemma divert_out l : forall k x, x ∉ l -> divert l k x = x.
Proof.
  intros k x Hx. unfold divert. assert (H : forall acc, foldl (fun (y : nat) (d : nat * nat) => if decide (x = d.1) then d.2 else y) acc (zip l k) = acc); [|apply H].
  revert k. induction l as [|z l IH]; intros k acc; [done|]. apply not_elem_of_cons in Hx as [H1 H2]. destruct k as [|u k]; [done|]. cbn [zip zip_with foldl fst snd]. rewrite decide_False by done. by apply IH.
Qed.
Lemma divert_in l : forall k i x y, NoDup l -> l !! i = Some x -> k !! i = Some y -> divert l k x = y.
Proof.
  intros k i x y. unfold divert. assert (H : forall acc, NoDup l -> l !! i = Some x -> k !! i = Some y -> foldl (fun (y : nat) (d : nat * nat) => if decide (x = d.1) then d.2 else y) acc (zip l k) = y); [|apply H].
  revert k i. induction l as [|z l IH]; intros k i acc Hn Hi Hk; [done|]. apply NoDup_cons in Hn as [Hz Hn]. destruct k as [|u k]; [done|]. cbn [zip zip_with foldl fst snd]. destruct i as [|i]; cbn in Hi, Hk.
  - injection Hi as ->. injection Hk as ->. rewrite decide_True by done. assert (Hout : forall k acc, foldl (fun (y : nat) (d : nat * nat) => if decide (x = d.1) then d.2 else y) acc (zip l k) = acc).
    { clear -Hz. induction l as [|w l IH]; intros k acc; [done|]. apply not_elem_of_cons in Hz as [H1 H2]. destruct k as [|u k]; [done|]. cbn [zip zip_with foldl fst snd]. rewrite decide_False by done. by apply IH. }
    apply Hout.
  - by eapply IH.
Qed.
Section Sem2.
  Context (other : nat -> list val -> option (list val)) (content : val -> val).
  Local Notation holds := (holds other content).
  Local Notation hold := (hold other content).
  Local Notation runs := (runs other content).
  Lemma runs_iff r vs ws : runs r vs ws <-> exists rho, map rho (rargs r) = vs /\ hold rho (rnodes r) /\ map rho (rres r) = ws.
  Proof.
    split.
    - intros H. destruct H as [args ns res rho H]. by exists rho.
    - destruct r as [args ns res]. intros (rho & <- & H & <-). by constructor.
  Qed.
  (** all names that occur in copies are below next' *)
  Lemma copy_bounds l s next l' s' next' : copy_nodes l s next = Some (l', s', next') -> NoDup (all_outs l) -> (forall x, x ∈ all_outs l -> s !! x = None) -> (forall x y, s !! x = Some y -> y < next) ->
    next <= next' /\ (forall x y, s' !! x = Some y -> y < next') /\ forall n y, n ∈ l' -> y ∈ nins n ++ nouts n -> y < next'.
  Proof.
    intros Hc Hn Hs Hb. destruct (copy_nodes_ok _ _ _ _ _ _ Hc Hn Hs) as (-> & E2 & E3 & E4 & E5). split; [lia|].
    assert (H : forall x y, s' !! x = Some y -> y < next + length (all_outs l)).
    { intros x y Hx. destruct (decide (x ∈ all_outs l)) as [Hin|Hout].
      - apply elem_of_list_lookup in Hin as [i Hi]. rewrite (E2 _ _ Hi) in Hx. injection Hx as <-. pose proof (lookup_lt_Some _ _ _ Hi). lia.
      - rewrite E3 in Hx by done. pose proof (Hb _ _ Hx). lia. }
    split; [exact H|]. intros n y Hin Hy. apply elem_of_list_lookup in Hin as [i Hi]. destruct (Forall2_lookup_r _ _ _ _ _ E4 Hi) as (m & _ & _ & M1 & M2).
    apply elem_of_app in Hy as [Hy|Hy]; apply elem_of_list_lookup in Hy as [j Hj]; [destruct (Forall2_lookup_r _ _ _ _ _ M1 Hj) as (x & _ & Hx) | destruct (Forall2_lookup_r _ _ _ _ _ M2 Hj) as (x & _ & Hx)]; by eapply H.
  Qed.
  Lemma hold_ext rho rho' l : (forall n y, n ∈ l -> y ∈ nins n ++ nouts n -> rho y = rho' y) -> hold rho l -> hold rho' l.
  Proof. intros H Hh n Hn. eapply holds_ext; [| |by apply Hh]; intros x Hx; apply (H n); try done; apply elem_of_app; [by left | by right]. Qed.

  Section Copy.
    Context (l : list node) (keys tgt : list nat) (next : nat) (l' : list node) (s' : gmap nat nat) (next' : nat).
    Context (Hc : copy_nodes l (insert_all keys tgt ∅) next = Some (l', s', next')) (Hn : NoDup (keys ++ all_outs l)) (Hl : length keys = length tgt).
    Lemma keys_none x : x ∈ all_outs l -> insert_all keys tgt ∅ !! x = None.
    Proof using Hn. clear Hc Hl. apply NoDup_app in Hn as (_ & Hd & _). intros Hx. rewrite insert_all_out; [by rewrite lookup_empty|]. intros Hk. exact (Hd x Hk Hx). Qed.
    Lemma keys_in i x y : keys !! i = Some x -> tgt !! i = Some y -> s' !! x = Some y.
    Proof using Hc Hn Hl.
      pose proof Hn as Hn0. apply NoDup_app in Hn0 as (Hk & Hd & Ho). intros Hi Hy. destruct (copy_nodes_ok _ _ _ _ _ _ Hc Ho keys_none) as (E1 & E2 & E3 & E4 & E5). rewrite E3; [by eapply insert_all_in|]. intros Hx. apply (Hd x); [by eapply elem_of_list_lookup_2 | done].
    Qed.
    Lemma keys_maps : maps s' keys tgt.
    Proof using Hc Hn Hl. apply Forall2_same_length_lookup. split; [done|]. intros i x y Hi Hy. by eapply keys_in. Qed.
    Lemma keys_value x y : insert_all keys tgt ∅ !! x = Some y -> exists i, keys !! i = Some x /\ tgt !! i = Some y.
    Proof using Hn Hl. clear Hc. intros H. apply NoDup_app in Hn as (Hk & _ & _). destruct (insert_all_inv _ _ _ _ _ Hl Hk H) as [?|[_ He]]; [done | by rewrite lookup_empty in He]. Qed.
    Lemma copy_dom x : is_Some (s' !! x) -> x ∈ keys ++ all_outs l.
    Proof using Hc Hn Hl.
      intros [y Hy]. pose proof Hn as Hn0. apply NoDup_app in Hn0 as (_ & _ & Ho). destruct (copy_nodes_ok _ _ _ _ _ _ Hc Ho keys_none) as (E1 & E2 & E3 & E4 & E5). apply elem_of_app. destruct (decide (x ∈ all_outs l)) as [|Hx]; [by right|]. left. rewrite E3 in Hy by done.
      destruct (keys_value _ _ Hy) as (i & Hi & _). by eapply elem_of_list_lookup_2.
    Qed.
    Lemma copy_uses n x : n ∈ l -> x ∈ nins n -> x ∈ keys ++ all_outs l.
    Proof using Hc Hn Hl.
      intros Hin Hx. apply copy_dom. pose proof Hn as Hn0. apply NoDup_app in Hn0 as (_ & _ & Ho). destruct (copy_nodes_ok _ _ _ _ _ _ Hc Ho keys_none) as (E1 & E2 & E3 & E4 & E5). apply elem_of_list_lookup in Hin as [i Hi].
      destruct (Forall2_lookup_l _ _ _ _ _ E4 Hi) as (m & _ & _ & M1 & _). apply elem_of_list_lookup in Hx as [j Hj]. destruct (Forall2_lookup_l _ _ _ _ _ M1 Hj) as (y & _ & Hy). by eexists.
    Qed.
    Lemma copy_low : (forall y, y ∈ tgt -> y < next) -> next <= next' /\ (forall x y, s' !! x = Some y -> y < next') /\ forall n y, n ∈ l' -> y ∈ nins n ++ nouts n -> y < next'.
    Proof using Hc Hn Hl.
      intros Ht. pose proof Hn as Hn0. apply NoDup_app in Hn0 as (_ & _ & Ho). eapply copy_bounds; [exact Hc | done | exact keys_none|]. intros x y Hx. destruct (keys_value _ _ Hx) as (i & _ & Hi). apply Ht. by eapply elem_of_list_lookup_2.
    Qed.
    Lemma copy_fwd rho rho0 : (forall y, y ∈ tgt -> y < next) -> map rho keys = map rho0 tgt -> hold rho l ->
      exists rho', (forall y, y < next \/ next' <= y -> rho' y = rho0 y) /\ hold rho' l' /\ forall x y, s' !! x = Some y -> rho x = rho' y.
    Proof using Hc Hn Hl.
      intros Ht Hm Hh. pose proof Hn as Hn0. apply NoDup_app in Hn0 as (_ & _ & Ho). destruct (copy_nodes_ok _ _ _ _ _ _ Hc Ho keys_none) as (E1 & E2 & E3 & E4 & E5). exists (spread l rho rho0 next).
      assert (Ha : forall x y, s' !! x = Some y -> rho x = spread l rho rho0 next y).
      { eapply spread_agree; [exact Hc | done | exact keys_none|]. intros x y Hx. destruct (keys_value _ _ Hx) as (i & Hi & Hy). split; [apply Ht; by eapply elem_of_list_lookup_2|].
        assert (E : map rho keys !! i = map rho0 tgt !! i) by (by rewrite Hm). assert (L1 : map rho keys !! i = Some (rho x)) by (change (map rho keys) with (rho <$> keys); by rewrite list_lookup_fmap, Hi).
        assert (L2 : map rho0 tgt !! i = Some (rho0 y)) by (change (map rho0 tgt) with (rho0 <$> tgt); by rewrite list_lookup_fmap, Hy). congruence. }
      split; [|split; [|exact Ha]].
      - intros y [Hy|Hy]; [by apply spread_old | apply spread_new; lia].
      - by apply (copied_hold _ _ s' rho _ _ _ Ha E4).
    Qed.
    Lemma copy_bwd rho' d : hold rho' l' -> hold (pull s' rho' d) l /\ map (pull s' rho' d) keys = map rho' tgt.
    Proof using Hc Hn Hl.
      intros Hh. pose proof Hn as Hn0. apply NoDup_app in Hn0 as (_ & _ & Ho). destruct (copy_nodes_ok _ _ _ _ _ _ Hc Ho keys_none) as (E1 & E2 & E3 & E4 & E5). split.
      - eapply copied_hold; [|exact E4 | exact Hh]. intros x y. apply pull_agree.
      - eapply maps_agree; [|exact keys_maps]. intros x y. apply pull_agree.
    Qed.
  End Copy.
End Sem2.
