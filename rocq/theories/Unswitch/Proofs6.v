(** The whole transformation. *)
From stdpp Require Import base list gmap.
From Coq Require Import ZArith Lia.
From Verif.LocalRegion Require Import Model Spec Facts.
From Verif.Unswitch Require Import Model Spec Proofs1 Proofs2 Proofs3 Proofs4 Proofs5.

Lemma delete_in {A} (l : list A) i g x : l !! g = Some x -> g <> i -> x ∈ delete i l.
Proof.
  intros Hg Hne. destruct (decide (g < i)) as [Hlt|Hge].
  - apply elem_of_list_lookup. exists g. by rewrite lookup_delete_lt.
  - apply elem_of_list_lookup. exists (pred g). rewrite lookup_delete_ge by lia. by replace (S (pred g)) with g by lia.
Qed.
Lemma unswitchable_shape body g : wf_body body -> is_unswitchable body = Some g -> switches body g ->
  exists m p, shape body g m p 2 /\ forall x n, x ∈ tail (rres body) -> rnodes body !! g = Some n -> x ∈ rargs body \/ x ∈ nouts n.
Proof.
  intros Hw Hu (subs & p & es & outs & Hg & Hl & Hhd). unfold is_unswitchable in Hu. destruct (rres body) as [|p' posts] eqn:Er; [done|]. cbn in Hhd. injection Hhd as ->. destruct (owner (rnodes body) p) as [m|] eqn:Eo; [|done]. cbn [mbind option_bind] in Hu. destruct (negb (is_match m)) eqn:Em; [done|]. apply negb_false_iff in Em.
  destruct (node_uses body p) as [|[i j] [|]]; [done| |done]. destruct (result_uses body p) as [|[|]]; [done| |done]. destruct (rnodes body !! i) as [n|] eqn:Ei; [|done]. cbn [mbind option_bind] in Hu. destruct (is_gamma n && _) eqn:Eb; [|done]. injection Hu as ->. rewrite Hg in Ei. injection Ei as <-. apply andb_true_iff in Eb as [_ Eb].
  exists m, p. unfold owner in Eo. destruct (list_find _ _) as [[k m']|] eqn:Ef; [|done]. cbn in Eo. injection Eo as ->. apply list_find_Some in Ef as (Ef & Hm & _). split.
  - split; [done|]. split; [by exists subs, es, outs|]. split; [by eapply elem_of_list_lookup_2|]. split; [done|]. split; [done|]. by rewrite Er.
  - intros x n Hx Hn. rewrite Hg in Hn. injection Hn as <-. cbn [tail] in Hx. rewrite forallb_forall in Eb. specialize (Eb x (proj1 (elem_of_list_In _ _) Hx)). apply orb_true_iff in Eb as [E|E]; apply bool_decide_eq_true in E; [by left | by right].
Qed.
Lemma default_roles body g m p ns c : shape body g m p ns -> correlate body = Some c -> default_heuristic body c = true -> roles c = Some (0, 1) /\ corr_gamma c = g.
Proof.
  intros (((Hn & _) & (rank & Rk1 & _) & _) & (subs & es & outs & Hg & _) & Hm & Him & Hpm & Hhd). unfold correlate. assert (Hno : NoDup (all_outs (rnodes body))) by (by apply NoDup_app in Hn as (_ & _ & Hn)).
  pose proof Hm as Hmin. apply elem_of_list_lookup in Hm as [j Hj]. pose proof (owner_index_in _ _ _ _ Hno Hj Hpm) as Ho. pose proof (owner_in _ _ _ _ Hno Hj Hpm) as Ho'.
  assert (Hng : is_gamma m = false). { destruct m as [[[]|subs'|b] ? ?]; done. }
  unfold control_constant. rewrite Hhd. cbn [mbind option_bind]. rewrite Ho. cbn [mbind option_bind]. rewrite Hj. cbn [mbind option_bind]. rewrite Hng. cbn [mbind option_bind].
  destruct (match_constant body) as [c'|] eqn:Ec.
  - intros [= ->] Hd. exfalso. unfold match_constant in Ec. rewrite Hhd in Ec. cbn [mbind option_bind] in Ec. rewrite Ho' in Ec. cbn [mbind option_bind] in Ec. destruct (nkind m) as [[| |w mp d| | | |]| |] eqn:Ek; try done. destruct (head (nins m)) as [x|] eqn:Ex; [|done]. cbn [mbind option_bind] in Ec.
    destruct (owner_index (rnodes body) x) as [i|] eqn:Ei; [|done]. cbn [mbind option_bind] in Ec. destruct (rnodes body !! i) as [n|] eqn:En; [|done]. cbn [mbind option_bind] in Ec. destruct (if is_gamma n then _ else _) as [alts|]; [|done]. cbn in Ec. injection Ec as <-.
    unfold default_heuristic in Hd. cbn [corr_gamma] in Hd. rewrite forallb_forall in Hd. assert (Hne : g <> i).
    { intros ->. apply owner_index_ok in Ei as (n' & Hn' & Hx). rewrite Hg in Hn'. injection Hn' as <-. cbn [nouts] in Hx. assert (H1 : rank x < rank p). { apply (Rk1 m); [done| |done]. destruct (nins m) as [|y l]; [done|]. cbn in Ex. injection Ex as ->. by left. }
      assert (H2 : rank p < rank x). { apply (Rk1 (Node (KGamma subs) (p :: es) outs)); [by eapply elem_of_list_lookup_2 | by left | done]. } lia. }
    pose proof (delete_in _ i _ _ Hg Hne) as HGd. specialize (Hd _ (proj1 (elem_of_list_In _ _) HGd)). done.
  - unfold match_correlation. rewrite Hhd. cbn [mbind option_bind]. rewrite Ho'. cbn [mbind option_bind]. rewrite Him. destruct (list_find _ _) as [[a b]|]; [|done]. cbn [mbind option_bind]. intros [= <-] Hd. split; [done|]. unfold default_heuristic in Hd. rewrite forallb_forall in Hd. destruct (decide (g = corr_gamma (MatchCorrelation b.1))) as [|Hne]; [done|]. exfalso. specialize (Hd _ (proj1 (elem_of_list_In _ _) (delete_in _ _ _ _ Hg Hne))). done.
Qed.

Section Final.
  Context (other : nat -> list val -> option (list val)) (content : val -> val).
  Lemma loops_same b b' vs ws : same other content b b' -> loops other content b vs ws -> loops other content b' vs ws.
  Proof. intros H Hl. induction Hl as [b vs ws Hr|b vs us ws Hr Hl IH]; [apply l_exit; by apply H | eapply l_again; [by apply H | by apply IH]]. Qed.
  Lemma theta_same A l1 l2 res b b' ins outs : same other content b b' -> same other content (Region A (l1 ++ Node (KTheta b) ins outs :: l2) res) (Region A (l1 ++ Node (KTheta b') ins outs :: l2) res).
  Proof.
    intros H vs ws. rewrite !runs_iff. cbn [rargs rnodes rres].
    assert (Hs : same other content b' b) by (intros v w; by rewrite (H v w)).
    assert (Hw : forall rho, hold other content rho (l1 ++ Node (KTheta b) ins outs :: l2) <-> hold other content rho (l1 ++ Node (KTheta b') ins outs :: l2)).
    { intros rho. rewrite !hold_app, !hold_cons. assert (E : holds other content rho (Node (KTheta b) ins outs) <-> holds other content rho (Node (KTheta b') ins outs)); [|by rewrite E].
      unfold holds. cbn [nkind nins nouts]. split; intros Hh; inversion Hh as [| |b0 vs0 ws0 Hl E1 E2 E3]; subst; constructor; by eapply loops_same. }
    split; intros (rho & E1 & Hh & E2); exists rho; (split; [done|]); (split; [by apply Hw | done]).
  Qed.
  Lemma unswitch_loop_ok A l1 l2 res next tins touts body : let r := Region A (l1 ++ Node (KTheta body) tins touts :: l2) res in
    NoDup (names r) -> below next r -> (forall x, x ∈ tins -> x ∉ touts) -> length tins = length (rargs body) -> length touts = length tins -> wf_body body -> (forall g, is_unswitchable body = Some g -> switches body g) ->
    match unswitch_loop default_heuristic next tins body with
    | Kept body' => same other content body body'
    | Replaced news repl _ => let f := divert touts repl in same other content r (Region A (map (divert_node f) l1 ++ news ++ map (divert_node f) l2) (map f res))
    | Thrown => True
    end.
  Proof.
    intros r Hn Hb Hd Hlt Hlo Hw Hsw. unfold unswitch_loop. destruct (is_unswitchable body) as [g|] eqn:Eu; [|done]. destruct (unswitchable_shape body g Hw Eu (Hsw g eq_refl)) as (m & p & Hs & Hp).
    destruct (sink_ok other content body g m p 2 Hs Hp) as (Hs' & Hsame & Hargs). destruct (sink body g) as [body1 g1]. cbn [fst snd] in *. destruct (correlate body1) as [c|] eqn:Ec; [|done]. destruct (default_heuristic body1 c) eqn:Eh; [|done].
    destruct (default_roles _ _ _ _ _ _ Hs' Ec Eh) as [-> ->]. destruct (unswitch 0 1 g1 next tins body1 g1) as [[[news repl] next']|] eqn:Ex; [|done]. intros f.
    destruct Hs' as (((Hn1 & _) & _ & Hwg & Hlen) & (subs & es & outs & Hg & Hns) & _ & _ & _ & Hhd). destruct body1 as [pre nodes rs]. cbn [rargs rnodes rres] in *. destruct rs as [|p' posts]; [done|]. cbn in Hhd, Hlen. injection Hhd as ->. injection Hlen as Hlen. destruct subs as [|xe [|xr [|]]]; [done|done| |done].
    assert (HG : wf_gamma (Node (KGamma [xe; xr]) (p :: es) outs)) by (by apply Hwg; eapply elem_of_list_lookup_2). destruct HG as [_ HG].
    destruct (unswitch_replaces other content next tins pre nodes p posts g1 xe xr es outs news repl next' Hg Hn1) as [Hlr Hrep].
    { intros x Hx. destruct (HG x Hx) as ((W & _) & L1 & L2). cbn [nins nouts] in L1, L2. by split. }
    { done. } { congruence. }
    { intros x Hx. destruct Hb as (B1 & B2 & _). apply B1. apply (B2 (Node (KTheta body) tins touts)); [unfold r; cbn [rnodes]; apply elem_of_app; right; by left | done]. }
    { done. }
    eapply same_trans; [by apply (theta_same A l1 l2 res body)|]. apply (replace_same other content A l1 l2 res _ tins touts next news repl); [|split; [|split]|done|congruence|done].
    - unfold names, r in *. cbn [rargs rnodes] in *. rewrite all_outs_app, all_outs_cons in *. done.
    - destruct Hb as (B1 & _). intros x Hx. apply B1. unfold names, r in *. cbn [rargs rnodes] in *. rewrite all_outs_app, all_outs_cons in *. done.
    - destruct Hb as (_ & B2 & _). intros n x Hin Hx. assert (Hq : x ∈ names r).
      { cbn [rnodes] in Hin. apply elem_of_app in Hin as [Hin|Hin]; [apply (B2 n); [unfold r; cbn [rnodes]; apply elem_of_app; by left | done]|]. apply elem_of_cons in Hin as [->|Hin]; [apply (B2 (Node (KTheta body) tins touts)); [unfold r; cbn [rnodes]; apply elem_of_app; right; by left | done]|]. apply (B2 n); [unfold r; cbn [rnodes]; apply elem_of_app; right; by right | done]. }
      unfold names, r in *. cbn [rargs rnodes] in *. rewrite all_outs_app, all_outs_cons in *. done.
    - destruct Hb as (_ & _ & B3). intros x Hx. specialize (B3 x Hx). unfold names, r in *. cbn [rargs rnodes] in *. rewrite all_outs_app, all_outs_cons in *. done.
  Qed.
End Final.
