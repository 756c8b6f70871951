(** Hoisting one node, at any place; sequences. *)
From stdpp Require Import base list gmap.
From Coq Require Import ZArith Lia.
From Verif.LocalRegion Require Import Model Spec Facts.
From Verif.Unswitch Require Import Model Spec Proofs1 Proofs2 Proofs3.
From Verif.Sinking Require Import Spec.
From Verif.Hoisting Require Import Model Spec Proofs1 Proofs2 Proofs3.
Open Scope nat_scope.

Lemma hoist_parts mem w j r r' : hoist mem w j r = Some r' -> exists i k w' o ins outs xs, w = (i, k) :: w' /\ node_at w j r = Some (Node (KSimple o) ins outs) /\ operands mem w j r = Some xs /\
  r' = route w j (seq (region_bound r) (length outs)) (Region (rargs r) (rnodes r ++ [Node (KSimple o) xs (seq (region_bound r) (length outs))]) (rres r)).
Proof.
  unfold hoist. intros H. apply bind_Some in H as (n & Hn & H). apply bind_Some in H as (xs & Hx & H). destruct w as [|[i k] w]; [done|]. destruct n as [[o|subs|b] ins outs]; [|done|done]. injection H as <-. by exists i, k, w, o, ins, outs, xs.
Qed.
Lemma operands_in mem i k w j r xs N : operands mem ((i, k) :: w) j r = Some xs -> rnodes r !! i = Some N -> (forall subs, nkind N = KGamma subs -> 0 < length (nins N)) -> forall x, x ∈ xs -> x ∈ nins N.
Proof.
  cbn [operands]. intros H HN Hg x Hx. rewrite HN in H. cbn [mbind option_bind] in H. apply bind_Some in H as (s & Hs & H). apply bind_Some in H as (ys & Hys & H). destruct (mapM_in _ _ _ _ H Hx) as (y & _ & E). unfold up in E. apply bind_Some in E as (p & _ & E).
  destruct (nkind N) as [o|subs|b]; [done| |].
  - case_decide; [done|]. by eapply elem_of_list_lookup_2.
  - destruct (_ || _) in E; [|done]. by eapply elem_of_list_lookup_2.
Qed.
(** the region with the new node, before the old one is replaced *)
Lemma append_deep r o xs m : deep r -> (forall x, x ∈ xs -> x ∈ names r) -> let news := seq (region_bound r) m in
  deep (Region (rargs r) (rnodes r ++ [Node (KSimple o) xs news]) (rres r)) /\
  forall i k w N, rnodes r !! i = Some N -> (forall x, x ∈ xs -> x ∈ nins N) -> early (Region (rargs r) (rnodes r ++ [Node (KSimple o) xs news]) (rres r)) ((i, k) :: w) news.
Proof.
  intros Hd Hxs news. set (r1 := Region _ _ _). destruct Hd as [r (Hnd & Hu & Hr) [rank [Hk Ha]] Hw Hb].
  assert (Hfresh : forall x, x ∈ names r -> x ∉ news) by (intros x Hx Hin; apply region_bound_ok in Hx; apply seq_new in Hin; lia).
  assert (Hnames : names r1 ≡ₚ names r ++ news) by (unfold names, r1; cbn [rargs rnodes]; rewrite all_outs_app; unfold all_outs at 2; cbn; by rewrite app_nil_r, app_assoc).
  set (rk := fun x => S (rank x)). set (M := foldr max 0 (map rk (xs ++ rargs r))). set (rank' := fun x => if decide (x ∈ news) then 2 * M + 1 else 2 * rk x).
  assert (Hin : forall x, x ∈ names r -> rank' x = 2 * rk x) by (intros x Hx; unfold rank'; rewrite decide_False; [done | by apply Hfresh]).
  assert (Hnode : forall n y, n ∈ rnodes r -> y ∈ nouts n -> y ∈ names r) by (intros n y Hn Hy; apply elem_of_app; right; apply elem_all_outs; by exists n).
  assert (HM : forall x, x ∈ xs ++ rargs r -> rk x <= M) by (intros x Hx; by apply (max_bound rk)).
  assert (Hranked : ranked r1 rank').
  { split; unfold r1; cbn [rnodes rargs].
    - intros n x y Hn Hx Hy. apply elem_of_app in Hn as [Hn|Hn].
      + rewrite (Hin x), (Hin y); [|by eapply Hnode | by eapply Hu]. specialize (Hk n x y Hn Hx Hy). unfold rk. lia.
      + apply elem_of_list_singleton in Hn as ->. cbn [nins nouts] in Hx, Hy. rewrite (Hin x) by (by apply Hxs). unfold rank'. rewrite decide_True by done. specialize (HM x). rewrite elem_of_app in HM. specialize (HM (or_introl Hx)). lia.
    - intros a n y Hxa Hn Hy. rewrite (Hin a) by (apply elem_of_app; by left). apply elem_of_app in Hn as [Hn|Hn].
      + rewrite (Hin y) by (by eapply Hnode). specialize (Ha a n y Hxa Hn Hy). unfold rk. lia.
      + apply elem_of_list_singleton in Hn as ->. cbn [nouts] in Hy. unfold rank'. rewrite decide_True by done. specialize (HM a). rewrite elem_of_app in HM. specialize (HM (or_intror Hxa)). lia. }
  split.
  - constructor.
    + split; [|split].
      * rewrite Hnames. apply NoDup_app. split; [done|]. split; [done | apply seq_nodup].
      * intros n x Hn Hx. rewrite Hnames. apply elem_of_app. left. unfold r1 in Hn. cbn [rnodes] in Hn. apply elem_of_app in Hn as [Hn|Hn]; [by eapply Hu|]. apply elem_of_list_singleton in Hn as ->. by apply Hxs.
      * intros x Hx. rewrite Hnames. apply elem_of_app. left. by apply Hr.
    + by exists rank'.
    + intros n Hn. unfold r1 in Hn. cbn [rnodes] in Hn. apply elem_of_app in Hn as [Hn|Hn]; [by apply Hw|]. by apply elem_of_list_singleton in Hn as ->.
    + intros n b Hn Hbb. unfold r1 in Hn. cbn [rnodes] in Hn. apply elem_of_app in Hn as [Hn|Hn]; [by eapply Hb|]. apply elem_of_list_singleton in Hn as ->. by apply elem_of_nil in Hbb.
  - intros i k w N HN Hin'. exists rank'. split; [done|]. intros N0 x y HN0 Hx Hy. unfold r1 in HN0. cbn [rnodes] in HN0. rewrite lookup_app_l in HN0 by (by eapply lookup_lt_Some). rewrite HN in HN0. injection HN0 as <-. assert (HNin : N ∈ rnodes r) by (by eapply elem_of_list_lookup_2).
    rewrite (Hin y) by (by eapply Hnode). unfold rank'. rewrite decide_True by done. assert (M < rk y); [|lia]. apply max_less; [unfold rk; lia|]. intros z Hz. apply elem_of_app in Hz as [Hz|Hz]; unfold rk; [specialize (Hk N z y HNin (Hin' z Hz) Hy) | specialize (Ha z N y Hz HNin Hy)]; lia.
Qed.

Section Sem.
  Context (other : nat -> list val -> option (list val)) (content : val -> val).
  Notation hold := (hold other content).
  Notation holds := (holds other content).
  Notation runs := (runs other content).
  Notation loops := (loops other content).
  Notation refines := (refines other content).
  Notation defined_in := (defined_in other content).

  Lemma hoist_ok w j r r' : deep r -> hoist no_mem w j r = Some r' ->
    deep r' /\ rargs r' = rargs r /\ rres r' = rres r /\ refines r' r /\
    forall o ins outs xs, node_at w j r = Some (Node (KSimple o) ins outs) -> operands no_mem w j r = Some xs -> defined_in r o xs (length outs) -> refines r r'.
  Proof.
    intros Hd H. apply hoist_parts in H as (i & k & w' & o & ins & outs & xs & -> & Hat & Hops & E). set (news := seq (region_bound r) (length outs)) in *. set (r1 := Region (rargs r) (rnodes r ++ [Node (KSimple o) xs news]) (rres r)) in *.
    assert (HN : exists N, rnodes r !! i = Some N) by (cbn [node_at] in Hat; apply bind_Some in Hat as (N & HN & _); by exists N). destruct HN as [N HN]. assert (HNin : N ∈ rnodes r) by (by eapply elem_of_list_lookup_2).
    assert (Hin : forall x, x ∈ xs -> x ∈ nins N). { eapply operands_in; [done | done|]. intros subs Ek. pose proof (deep_node r N Hd HNin) as HwN. unfold wf_node in HwN. rewrite Ek in HwN. unfold wf_gamma in HwN. rewrite Ek in HwN. by destruct HwN. }
    pose proof (deep_wf r Hd) as (Hnd & Hu & Hr).
    destruct (append_deep r o xs (length outs) Hd) as [Hd1 He1]; [intros x Hx; eapply Hu; [exact HNin | by apply Hin]|]. fold news r1 in Hd1, He1. specialize (He1 i k w' N HN Hin).
    assert (Hat1 : node_at ((i, k) :: w') j r1 = Some (Node (KSimple o) ins outs)). { rewrite <- Hat. cbn [node_at]. unfold r1. cbn [rnodes]. rewrite lookup_app_l by (by eapply lookup_lt_Some). done. }
    assert (Hops1 : operands no_mem ((i, k) :: w') j r1 = Some xs). { rewrite <- Hops. cbn [operands]. unfold r1. cbn [rnodes]. rewrite lookup_app_l by (by eapply lookup_lt_Some). done. }
    assert (Hnews1 : forall x, x ∈ news -> x ∈ names r1). { intros x Hx. apply elem_of_app. right. unfold r1. cbn [rnodes]. rewrite all_outs_app. apply elem_of_app. right. unfold all_outs. cbn. by rewrite app_nil_r. }
    assert (Hlen : length news = length outs) by apply seq_length. assert (Hfresh : forall x, x ∈ names r -> x ∉ news) by (intros x Hx Hx'; apply region_bound_ok in Hx; apply seq_new in Hx'; lia).
    assert (Hi1 : (length (rnodes r) > i)%nat) by (eapply lookup_lt_Some; exact HN).
    split; [|split; [|split; [|split]]].
    - rewrite E. eapply route_deep; try done.
    - rewrite E. by rewrite route_args.
    - by rewrite E.
    - intros vs ws Hrun. rewrite E in Hrun. apply runs_iff in Hrun as (rho & E1 & Hh & E2).
      assert (Ho : op_sem other o (map rho xs) = Some (map rho news)).
      { assert (Hnew : Node (KSimple o) xs news ∈ rnodes (route ((i, k) :: w') j news r1)). { cbn [route rnodes]. rewrite (alter_perm _ _ i N); [|unfold r1; cbn [rnodes]; rewrite lookup_app_l by lia; exact HN]. right. unfold r1. cbn [rnodes]. rewrite delete_take_drop, drop_app_le by lia. apply elem_of_app. right. apply elem_of_app. right. by left. }
        specialize (Hh _ Hnew). unfold Spec.holds in Hh. cbn [nkind nins nouts] in Hh. by inversion Hh. }
      destruct (route_bwd other content ((i, k) :: w') j r1 news o ins outs xs rho Hd1 Hat1 Hops1 Hnews1 ltac:(done) Hlen Ho Hh) as (rho' & A1 & A2 & A3). apply runs_iff. exists rho'. split; [|split].
      + rewrite <- E1, route_args. apply map_ext_in. intros x Hx%elem_of_list_In. by apply A1.
      + intros n Hn. apply A2. unfold r1. cbn [rnodes]. apply elem_of_app. by left.
      + rewrite <- E2. exact A3.
    - intros o' ins' outs' xs' Hat' Hops' Hdef vs ws Hrun. rewrite Hat in Hat'. injection Hat' as <- <- <-. rewrite Hops in Hops'. injection Hops' as <-. apply runs_iff in Hrun as (rho & <- & Hh & <-). destruct (Hdef rho Hh) as (us & Ho & Hlu).
      set (rho1 := sets rho news us). assert (E1 : forall l, (forall x, x ∈ l -> x ∈ names r) -> map rho1 l = map rho l) by (intros l Hl; apply sets_map_out; intros x Hx; by apply Hfresh, Hl).
      assert (Enews : map rho1 news = us) by (apply sets_map; [apply seq_nodup | by rewrite Hlen]). assert (Exs : map rho1 xs = map rho xs) by (apply E1; intros x Hx; eapply Hu; [exact HNin | by apply Hin]).
      destruct (route_fwd other content ((i, k) :: w') j r1 news o ins outs xs rho1 Hd1 Hat1 Hops1 Hnews1 Hlen) as (rho' & A1 & A2 & A3).
      { by rewrite Exs, Enews. }
      { unfold r1. cbn [rnodes]. apply hold_app. split.
        - eapply hold_ext; [|exact Hh]. intros n y Hn Hy. symmetry. apply sets_out, Hfresh. eapply rnodes_names; done.
        - intros n Hn. apply elem_of_list_singleton in Hn as ->. unfold Spec.holds. cbn [nkind nins nouts]. constructor. by rewrite Exs, Enews. }
      rewrite E. apply runs_iff. exists rho'. split; [|split; [done|]].
      + rewrite route_args. rewrite <- (E1 (rargs r)) by (intros x Hx; apply elem_of_app; by left). apply map_ext_in. intros x Hx%elem_of_list_In. apply A1. apply elem_of_app. by left.
      + rewrite A3. apply E1. exact Hr.
  Qed.
  (** a node that is hoisted out of loops only runs anyway *)
  Lemma loops_reach w : forall j r o ins outs xs rho, deep r -> loops_only r w -> node_at w j r = Some (Node (KSimple o) ins outs) -> operands no_mem w j r = Some xs -> hold rho (rnodes r) ->
    exists us, op_sem other o (map rho xs) = Some us /\ length us = length outs.
  Proof.
    induction w as [|[i k] w IH]; intros j r o ins outs xs rho Hd Hlo Hat Hops Hh; cbn [node_at operands] in *.
    - rewrite Hat in Hops. injection Hops as <-. specialize (Hh _ (elem_of_list_lookup_2 _ _ _ Hat)). unfold Spec.holds in Hh. cbn [nkind nins nouts] in Hh |- *. inversion Hh as [o' vs' us' Ho' | |]; subst. exists (map rho outs). by rewrite map_length.
    - inversion Hlo as [|r0 i0 b bins bouts w0 HN Hlo']; subst. rewrite HN in Hat, Hops. cbn [mbind option_bind bodies nkind lookup list_lookup] in Hat, Hops. apply bind_Some in Hops as (ys & Hys & Hxs). assert (HNin : Node (KTheta b) bins bouts ∈ rnodes r) by (by eapply elem_of_list_lookup_2).
      specialize (Hh _ HNin). unfold Spec.holds in Hh. cbn [nkind nins nouts] in Hh. inversion Hh as [| |b0 vs0 ws0 Hl]; subst b0 vs0 ws0.
      assert (Hrun : exists us, runs b (map rho bins) us) by (inversion Hl as [? ? ? Hr|? ? ? ? Hr _]; subst; eexists; exact Hr). destruct Hrun as [us Hrun]. apply runs_iff in Hrun as (rho1 & E1 & Hh1 & _).
      destruct (IH j b o ins outs ys rho1) as (us' & Ho & Hlu); [exact (deep_body r _ b Hd HNin ltac:(by left)) | done | done | done | done|]. exists us'. split; [|done]. rewrite <- Ho. f_equal. symmetry. eapply mapM_values; [exact Hxs|]. intros y x _ E. apply up_theta in E as (p & Ey & _ & Ex).
      assert (E2 : map rho1 (rargs b) !! p = map rho bins !! p) by (by rewrite E1). change (map ?f ?m) with (f <$> m) in E2. rewrite !list_lookup_fmap, Ey, Ex in E2. by injection E2.
  Qed.
  (** inside other regions *)
  Lemma theta_refines b b' vs ws : refines b b' -> loops b vs ws -> loops b' vs ws.
  Proof. intros H Hl. induction Hl as [b vs ws Hr|b vs us ws Hr Hl IH]; [apply l_exit; by apply H | eapply l_again; [by apply H | by apply IH]]. Qed.
  Definition put (n : node) (k : nat) (s' : region) : node := match n with Node (KGamma subs) ins outs => Node (KGamma (<[k := s']> subs)) ins outs | Node (KTheta _) ins outs => Node (KTheta s') ins outs | _ => n end.
  Lemma put_holds n k s s' rho : bodies n !! k = Some s -> refines s s' -> holds rho n -> holds rho (put n k s').
  Proof.
    intros Hs Href Hh. destruct n as [[o|subs|b] ins outs]; [done| |]; unfold Spec.holds in Hh |- *; cbn [put nkind nins nouts bodies] in *.
    - apply gamma_inv in Hh as (k' & s0 & vs & E & Hk' & Hr). apply gamma_inv. destruct (decide (k' = k)) as [->|Hne].
      + rewrite Hs in Hk'. injection Hk' as <-. exists k, s', vs. split; [done|]. split; [|by apply Href]. apply list_lookup_insert. by eapply lookup_lt_Some.
      + exists k', s0, vs. split; [done|]. split; [|done]. by rewrite list_lookup_insert_ne.
    - destruct k; [|done]. injection Hs as ->. inversion Hh as [| |b0 vs0 ws0 Hl]; subst. constructor. by eapply theta_refines.
  Qed.
  Lemma put_holds_back n k s s' rho : bodies n !! k = Some s -> refines s' s -> holds rho (put n k s') -> holds rho n.
  Proof.
    intros Hs Href Hh. assert (E : put (put n k s') k s = n). { destruct n as [[o|subs|b] ins outs]; [done| |]; cbn [put bodies nkind] in *; [by rewrite list_insert_insert, list_insert_id|]. destruct k; [by injection Hs as ->|done]. }
    rewrite <- E. eapply put_holds; [|exact Href | exact Hh]. destruct n as [[o|subs|b] ins outs]; cbn [put bodies nkind] in *; [done | apply list_lookup_insert; by eapply lookup_lt_Some|]. by destruct k.
  Qed.
  Lemma put_parts n k s' : nins (put n k s') = nins n /\ nouts (put n k s') = nouts n.
  Proof. by destruct n as [[o|subs|b] ins outs]. Qed.
  Lemma put_wf n k s s' : bodies n !! k = Some s -> wf_region s' -> rargs s' = rargs s -> rres s' = rres s -> wf_node n -> wf_node (put n k s').
  Proof.
    intros Hs Hd Ea Er Hw. destruct n as [[o|subs|b] ins outs]; [done| |]; cbn [put bodies nkind] in *.
    - destruct Hw as [H0 Hw]. cbn [nins nouts nkind] in *. unfold wf_node, wf_gamma. cbn [nins nouts nkind]. split; [done|]. intros b Hb. apply elem_of_list_lookup in Hb as [t Ht]. destruct (decide (t = k)) as [->|Hne].
      + rewrite list_lookup_insert in Ht by (by eapply lookup_lt_Some). injection Ht as <-. rewrite Ea, Er. split; [done|]. destruct (Hw s) as (_ & ? & ?); [by eapply elem_of_list_lookup_2|]. done.
      + rewrite list_lookup_insert_ne in Ht by done. apply Hw. by eapply elem_of_list_lookup_2.
    - destruct k; [|done]. injection Hs as ->. unfold wf_node in *. cbn [nins nouts nkind] in *. by rewrite Ea, Er.
  Qed.
  Lemma put_bodies n k s s' b : bodies n !! k = Some s -> b ∈ bodies (put n k s') -> b = s' \/ b ∈ bodies n.
  Proof.
    intros Hs Hb. destruct n as [[o|subs|b0] ins outs]; cbn [put bodies nkind] in *; [by right| |].
    - apply elem_of_list_lookup in Hb as [t Ht]. destruct (decide (t = k)) as [->|Hne].
      + rewrite list_lookup_insert in Ht by (by eapply lookup_lt_Some). injection Ht as <-. by left.
      + rewrite list_lookup_insert_ne in Ht by done. right. by eapply elem_of_list_lookup_2.
    - left. by apply elem_of_list_singleton in Hb.
  Qed.
  Lemma put_deep r i k n s s' : deep r -> rnodes r !! i = Some n -> bodies n !! k = Some s -> deep s' -> rargs s' = rargs s -> rres s' = rres s -> deep (Region (rargs r) (<[i := put n k s']> (rnodes r)) (rres r)).
  Proof.
    intros Hd Hi Hs Hd' Ea Er. destruct Hd as [r (Hnd & Hu & Hr) [rank [Hk Ha]] Hw Hb]. assert (Hlt : i < length (rnodes r)) by (by eapply lookup_lt_Some). assert (Hin : n ∈ rnodes r) by (by eapply elem_of_list_lookup_2). destruct (put_parts n k s') as [Ein Eout].
    assert (Hcase : forall m, m ∈ <[i := put n k s']> (rnodes r) -> m = put n k s' \/ m ∈ rnodes r).
    { intros m Hm. apply elem_of_list_lookup in Hm as [t Ht]. destruct (decide (t = i)) as [->|Hne]; [rewrite list_lookup_insert in Ht by done; injection Ht as <-; by left|]. rewrite list_lookup_insert_ne in Ht by done. right. by eapply elem_of_list_lookup_2. }
    assert (Hparts : forall m, m ∈ <[i := put n k s']> (rnodes r) -> exists m', m' ∈ rnodes r /\ nins m = nins m' /\ nouts m = nouts m'). { intros m Hm. destruct (Hcase m Hm) as [->|Hm']; [by exists n | by exists m]. }
    assert (Eo : all_outs (<[i := put n k s']> (rnodes r)) = all_outs (rnodes r)).
    { unfold all_outs. change (map ?f ?m) with (f <$> m). rewrite list_fmap_insert, Eout. f_equal. apply list_insert_id. by rewrite list_lookup_fmap, Hi. }
    constructor.
    - unfold wf_region, names. cbn [rargs rnodes rres]. rewrite Eo. split; [done|]. split; [|done]. intros m x Hm Hx. destruct (Hparts m Hm) as (m' & Hm' & E1 & _). rewrite E1 in Hx. by eapply Hu.
    - exists rank. cbn [rargs rnodes]. split; [intros m x y Hm Hx Hy | intros a m y Hxa Hm Hy]; destruct (Hparts m Hm) as (m' & Hm' & E1 & E2); [rewrite E1 in Hx|]; rewrite E2 in Hy; [by eapply Hk | by eapply Ha].
    - cbn [rnodes]. intros m Hm. destruct (Hcase m Hm) as [->|Hm']; [|by apply Hw]. eapply put_wf; try done; [by apply deep_wf | by apply Hw].
    - cbn [rnodes]. intros m b Hm Hbb. destruct (Hcase m Hm) as [->|Hm']; [|by eapply Hb]. destruct (put_bodies n k s s' b Hs Hbb) as [->|Hb']; [done | by eapply Hb].
  Qed.
  Lemma put_refines r i k n s s' : rnodes r !! i = Some n -> bodies n !! k = Some s ->
    (refines s s' -> refines r (Region (rargs r) (<[i := put n k s']> (rnodes r)) (rres r))) /\ (refines s' s -> refines (Region (rargs r) (<[i := put n k s']> (rnodes r)) (rres r)) r).
  Proof.
    intros Hi Hs. assert (Hlt : i < length (rnodes r)) by (by eapply lookup_lt_Some).
    assert (Hp : forall rho, hold rho (<[i := put n k s']> (rnodes r)) <-> holds rho (put n k s') /\ hold rho (delete i (rnodes r))).
    { intros rho. rewrite (hold_at other content rho _ i (put n k s')) by (by apply list_lookup_insert). rewrite !delete_take_drop, take_insert, drop_insert_gt by lia. done. }
    split; intros Href vs ws Hr; apply runs_iff in Hr as (rho & <- & Hh & <-); apply runs_iff; exists rho; (split; [done|]); (split; [|done]); cbn [rnodes] in *.
    - apply Hp. apply (hold_at other content rho _ _ _ Hi) in Hh as [Hn Hh]. split; [|done]. by eapply put_holds.
    - apply Hp in Hh as [Hn Hh]. apply (hold_at other content rho _ _ _ Hi). split; [|done]. by eapply put_holds_back.
  Qed.
  Lemma hoist_at_ok at_ : forall w j r r', deep r -> hoist_at no_mem at_ w j r = Some r' ->
    exists s s', inside r at_ s /\ hoist no_mem w j s = Some s' /\ deep s /\ deep r' /\ rargs r' = rargs r /\ rres r' = rres r /\ refines r' r /\ (refines s s' -> refines r r').
  Proof.
    induction at_ as [|[i k] at_ IH]; intros w j r r' Hd H; cbn [hoist_at] in H.
    - destruct (hoist_ok w j r r' Hd H) as (H1 & H2 & H3 & H4 & _). exists r, r'. split; [constructor|]. done.
    - apply bind_Some in H as (n & Hn & H). apply bind_Some in H as (s & Hs & H). apply bind_Some in H as (s' & Hs' & H). injection H as H. assert (Hin : n ∈ rnodes r) by (by eapply elem_of_list_lookup_2). assert (Hds : deep s) by exact (deep_body r n s Hd Hin (elem_of_list_lookup_2 _ _ _ Hs)).
      destruct (IH w j s s' Hds Hs') as (s0 & s0' & H1 & H2 & H3 & H4 & H5 & H6 & H7 & H8). fold (put n k s') in H. subst r'. destruct (put_refines r i k n s s' Hn Hs) as [P1 P2]. exists s0, s0'. split; [by econstructor|]. split; [done|]. split; [done|]. split; [by eapply put_deep|]. split; [done|]. split; [done|]. auto.
  Qed.
End Sem.
