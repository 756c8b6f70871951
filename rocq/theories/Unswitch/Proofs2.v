(** The region of the loop before and after unswitching. *)
From stdpp Require Import base list gmap.
From Coq Require Import ZArith Lia.
From Verif.LocalRegion Require Import Model Spec Facts.
From Verif.Unswitch Require Import Model Proofs1.

Section Parent.
  Context (other : nat -> list val -> option (list val)) (content : val -> val).
  Local Notation holds := (holds other content).
  Local Notation hold := (hold other content).
  Local Notation runs := (runs other content).
  Local Notation loops := (loops other content).
  Local Notation eval := (eval other content).
  (** new nodes that compute, from the inputs of a node, what the node computes, at the names repl *)
  Definition replaces (next : nat) (k : kind) (ins : list nat) (news : list node) (repl : list nat) : Prop :=
    (forall rho us, eval k (map rho ins) us -> exists rho', (forall x, x < next -> rho' x = rho x) /\ hold rho' news /\ map rho' repl = us) /\
    (forall rho', hold rho' news -> eval k (map rho' ins) (map rho' repl)).
  Lemma divert_map (rho rho' : nat -> val) touts repl l : NoDup touts -> length touts = length repl -> (forall x, x ∈ l -> x ∉ touts -> rho' x = rho x) -> map rho' repl = map rho touts -> map rho' (map (divert touts repl) l) = map rho l.
  Proof.
    intros Hn Hl Hx Hm. rewrite map_map. apply map_ext_in. intros x Hin%elem_of_list_In. destruct (decide (x ∈ touts)) as [Ht|Ht].
    - apply elem_of_list_lookup in Ht as [i Hi]. destruct (lookup_lt_is_Some_2 repl i) as [y Hy]; [rewrite <-Hl; by eapply lookup_lt_Some|]. rewrite (divert_in _ _ _ _ _ Hn Hi Hy).
      assert (E : map rho' repl !! i = map rho touts !! i) by (by rewrite Hm). change (map ?f ?m) with (f <$> m) in E. rewrite !list_lookup_fmap, Hi, Hy in E. cbn in E. congruence.
    - rewrite divert_out by done. auto.
  Qed.
  Lemma replace_same A l1 l2 res k tins touts next news repl : let r := Region A (l1 ++ Node k tins touts :: l2) res in
    NoDup (names r) -> below next r -> (forall x, x ∈ tins -> x ∉ touts) -> length touts = length repl -> replaces next k tins news repl ->
    let f := divert touts repl in same other content r (Region A (map (divert_node f) l1 ++ news ++ map (divert_node f) l2) (map f res)).
  Proof.
    intros r Hn (Hb1 & Hb2 & Hb3) Hd Hl [Hf Hbw] f vs ws. unfold r, names in Hn. cbn [rargs rnodes] in Hn. rewrite all_outs_app, all_outs_cons in Hn. cbn [nouts] in Hn.
    assert (Ht : NoDup touts). { apply NoDup_app in Hn as (_ & _ & Hn). apply NoDup_app in Hn as (_ & _ & Hn). by apply NoDup_app in Hn as (Hn & _). }
    assert (HA : forall x, x ∈ A -> x ∉ touts). { intros x Hx Hc. apply NoDup_app in Hn as (_ & Hn & _). apply (Hn x Hx). rewrite !elem_of_app. tauto. }
    assert (H1 : forall n x, n ∈ l1 ++ l2 -> x ∈ nouts n -> x ∉ touts).
    { intros n x Hin Hx Hc. apply NoDup_app in Hn as (_ & _ & Hn). apply NoDup_app in Hn as (_ & Hn1 & Hn). apply NoDup_app in Hn as (_ & Hn2 & _). apply elem_of_app in Hin as [Hin|Hin].
      - apply (Hn1 x); [apply elem_all_outs; by exists n|]. apply elem_of_app. by left.
      - apply (Hn2 x Hc). apply elem_all_outs. by exists n. }
    assert (Hin : forall n, n ∈ l1 ++ l2 -> n ∈ rnodes r). { intros n. unfold r. cbn [rnodes]. rewrite !elem_of_app, elem_of_cons. tauto. }
    rewrite !runs_iff. cbn [rargs rnodes rres]. split.
    - intros (rho & <- & Hh & <-). unfold r in Hh. cbn [rnodes] in Hh. rewrite hold_app, hold_cons in Hh. destruct Hh as (Hh1 & Hh2 & Hh3). unfold Spec.holds in Hh2. cbn [nkind nins nouts] in Hh2. destruct (Hf rho _ Hh2) as (rho' & R1 & R2 & R3).
      assert (Hdiv : forall n, n ∈ l1 ++ l2 -> holds rho n -> holds rho' (divert_node f n)).
      { intros n Hn' Hh. unfold Spec.holds in *. cbn [divert_node nkind nins nouts]. replace (map rho' (map f (nins n))) with (map rho (nins n)); [replace (map rho' (nouts n)) with (map rho (nouts n)); [done|]|].
        - apply map_ext_in. intros x Hx%elem_of_list_In. symmetry. apply R1, Hb1. unfold names. apply elem_of_app. right. apply elem_all_outs. exists n. auto.
        - symmetry. apply divert_map; [done | done | | done]. intros x Hx _. apply R1, Hb1. eapply Hb2; [by apply Hin | done]. }
      exists rho'. split; [|split].
      + apply map_ext_in. intros x Hx%elem_of_list_In. apply R1, Hb1. unfold names. apply elem_of_app. by left.
      + rewrite !hold_app. split; [|split; [done|]]; intros n' Hn'; apply elem_of_list_fmap in Hn' as (n & -> & Hn'); apply Hdiv; [apply elem_of_app; by left | by apply Hh1 | apply elem_of_app; by right | by apply Hh3].
      + apply divert_map; [done | done | | done]. intros x Hx _. by apply R1, Hb1, Hb3.
    - intros (rho' & <- & Hh & <-). rewrite !hold_app in Hh. destruct Hh as (Hh1 & Hh2 & Hh3). set (rho := fun x => rho' (f x)).
      assert (Hout : forall l, (forall x, x ∈ l -> x ∉ touts) -> map rho l = map rho' l). { intros l Hl'. apply map_ext_in. intros x Hx%elem_of_list_In. unfold rho, f. rewrite divert_out; [done | auto]. }
      assert (Hrepl : map rho touts = map rho' repl).
      { unfold rho. rewrite <-(map_map f rho'). f_equal. apply list_eq_same_length with (length repl); [done | by rewrite map_length|]. intros i x y Hi Hx Hy. change (map ?f ?m) with (f <$> m) in Hx. apply list_lookup_fmap_inv in Hx as (z & -> & Hz). by eapply divert_in. }
      assert (Hdiv : forall n, n ∈ l1 ++ l2 -> holds rho' (divert_node f n) -> holds rho n).
      { intros n Hn' Hh. unfold Spec.holds in *. cbn [divert_node nkind nins nouts] in Hh. rewrite map_map in Hh. rewrite (Hout (nouts n)); [exact Hh|]. intros x Hx. by eapply H1. }
      exists rho. split; [by apply Hout|]. split; [|unfold rho; by rewrite map_map]. unfold r. cbn [rnodes]. rewrite hold_app, hold_cons. split; [|split].
      + intros n Hn'. apply Hdiv; [apply elem_of_app; by left|]. apply Hh1. apply elem_of_list_fmap. by exists n.
      + unfold Spec.holds. cbn [nkind nins nouts]. rewrite (Hout tins Hd), Hrepl. by apply Hbw.
      + intros n Hn'. apply Hdiv; [apply elem_of_app; by right|]. apply Hh3. apply elem_of_list_fmap. by exists n.
  Qed.
  Lemma pick_in gs rs x y : pick gs rs x = Some y -> x ∈ gs.
  Proof. unfold pick. destruct (list_find _ gs) as [[i z]|] eqn:E; [|done]. intros _. apply list_find_Some in E as (E1 & -> & _). by eapply elem_of_list_lookup_2. Qed.

  Lemma unswitch_replaces next tins pre nodes p posts g xe xr es gouts news repl next' :
    nodes !! g = Some (Node (KGamma [xe; xr]) (p :: es) gouts) -> NoDup (names (Region pre nodes (p :: posts))) ->
    (forall x, x ∈ [xe; xr] -> NoDup (names x) /\ length (rargs x) = S (length es) /\ length (rres x) = length gouts) -> length posts = length pre -> length tins = length pre -> (forall x, x ∈ tins -> x < next) ->
    unswitch 0 1 g next tins (Region pre nodes (p :: posts)) g = Some (news, repl, next') -> length repl = length tins /\ replaces next (KTheta (Region pre nodes (p :: posts))) tins news repl.
  Proof.
    intros Hg Hn Hsub Hlp Hlt Hlow. unfold unswitch. cbn [rres rnodes rargs]. rewrite Hg. cbn [mbind option_bind nkind]. change ([xe; xr] !! 0) with (Some xe). change ([xe; xr] !! 1) with (Some xr). cbn [mbind option_bind].
    destruct (Hsub xe) as (Hxe & Hea & Heo); [by left|]. destruct (Hsub xr) as (Hxr & Hra & Hro); [right; by left|]. clear Hsub. set (preds := collect nodes g).
    destruct (copy_nodes preds (insert_all pre tins ∅) next) as [[[P1 s1] next1]|] eqn:EP1; [|done]. cbn [mbind option_bind].
    destruct (s1 !! p) as [q'|] eqn:Eq'; [|done]. cbn [mbind option_bind]. destruct (mapM (fun x => s1 !! x) es) as [es'|] eqn:Ees'; [|done]. cbn [mbind option_bind].
    destruct (copy_nodes (rnodes xr) _ _) as [[[R s3] n3]|] eqn:ER; [|done]. cbn [mbind option_bind].
    destruct (mapM _ posts) as [picks|] eqn:Epk; [|done]. cbn [mbind option_bind].
    destruct (copy_nodes preds (insert_all pre picks ∅) n3) as [[[P2 s4] n4]|] eqn:EP2; [|done]. cbn [mbind option_bind].
    destruct (s4 !! p) as [pt|] eqn:Ept; [|done]. cbn [mbind option_bind]. destruct (mapM (fun x => s4 !! x) es) as [es4|] eqn:Ees4; [|done]. cbn [mbind option_bind].
    set (k := length es) in *. set (body' := Region (seq 0 k) (R ++ P2) (pt :: es4)).
    destruct (copy_nodes (rnodes xe) _ _) as [[[X s7] next7]|] eqn:EX; [|done]. cbn [mbind option_bind].
    destruct (mapM (fun x => y ← pick gouts (rres xe) x; s7 !! y) posts) as [repl'|] eqn:Erp; [|done]. cbn [mbind option_bind]. intros [= <- <- <-].
    destruct (names_perm pre nodes p posts g xe xr es gouts Hg Hn) as (Hn1 & Hn2 & Hd). fold preds in Hn1, Hd.
    assert (Hl1 : length pre = length tins) by done.
    assert (Huses : forall n x, n ∈ preds -> x ∈ nins n -> x ∈ pre ++ all_outs preds) by (intros n x Hin Hx; eapply copy_uses; [exact EP1 | done | done | exact Hin | done]).
    assert (Hp : p ∈ pre ++ all_outs preds) by (eapply copy_dom; [exact EP1 | done | done | by eexists]).
    pose proof Ees' as Ees'0. apply mapM_maps in Ees'0.
    assert (Hes : forall x, x ∈ es -> x ∈ pre ++ all_outs preds). { intros x Hx. eapply copy_dom; [exact EP1 | done | done|]. apply elem_of_list_lookup in Hx as [i Hi]. destruct (Forall2_lookup_l _ _ _ _ _ Ees'0 Hi) as (y & _ & Hy). by eexists. }
    assert (Hposts : forall x, x ∈ posts -> x ∈ gouts). { intros x Hx. apply mapM_Some in Epk. apply elem_of_list_lookup in Hx as [i Hi]. destruct (Forall2_lookup_l _ _ _ _ _ Epk Hi) as (y & _ & Hy). destruct (pick gouts (rres xr) x) as [z|] eqn:Ez; [|done]. by eapply pick_in. }
    pose proof (loop_iff other content pre nodes p posts g xe xr es gouts Hg Hn Huses Hp Hes Hposts R P2 s3 s4 n3 n4 picks es4 pt Hxr Hra Hro Hlp ER Epk EP2 Ept Ees4) as Hloop.
    pose proof (gamma_iff other content pre posts xr es gouts R P2 s4 es4 pt Hra Hro Hlp Ees4) as Hgam. fold k in Hloop, Hgam. fold body' in Hloop, Hgam. cbn [map seq length].
    set (G := Node (KGamma [Region (0 :: seq 1 k) [] (seq 1 k); Region (0 :: seq 1 k) [Node (KTheta body') (seq 1 k) (seq (S k) k)] (seq (S k) k)]) (q' :: es') (seq next1 k)).
    destruct (copy_low _ _ _ _ _ _ _ EP1 Hn1 Hl1 Hlow) as (B1 & B2 & B3).
    destruct (sub_args pre posts xr es gouts Hra Hro Hlp xe Hea Hxe) as (a & l & Ea & Hll & Hnl & Hal). pose proof EX as EX0. rewrite Ea in EX0. cbn [tail] in EX0.
    assert (Hlr : length repl' = length tins). { apply mapM_Some in Erp. rewrite <-(Forall2_length _ _ _ Erp). lia. }
    split; [done|]. split.
    - intros rho us Hev. inversion Hev as [| |b vs0 ws0 Hl E1 E2 E3]; subst. apply Hloop in Hl as (pv & evs & vs & go & (rp & F1 & F2 & F3 & F4) & Hmid & Hx & Hs).
      destruct (copy_fwd other content _ _ _ _ _ _ _ EP1 Hn1 Hl1 rp rho Hlow F1 F2) as (rho1 & C1 & C2 & C3).
      assert (Hlv : length vs = k). { destruct Hmid as [[_ ->]|[_ Hm]]; [rewrite <-F4; by rewrite map_length|]. by eapply (loop'_length other content es R P2 s4). }
      set (rho2 := fun x => if decide (next1 <= x < next1 + k) then nth (x - next1) vs (VAny 0) else rho1 x).
      assert (D : map rho2 (seq next1 k) = vs). { rewrite <-Hlv. etransitivity; [|exact (map_nth_seq vs next1)]. apply map_ext_in. intros x Hx'%elem_of_list_In. apply elem_of_seq in Hx'. unfold rho2. rewrite decide_True by lia. done. }
      destruct (sub_fwd other content pre posts xr es gouts Hra Hro Hlp xe next1 X s7 next7 _ vs go rho2 Hea Hxe EX D Hx) as (rx & rho3 & X1 & X2 & X3 & X4).
      assert (R1 : forall x, x < next1 -> rho3 x = rho1 x). { intros x Hx'. rewrite X1 by lia. unfold rho2. by rewrite decide_False by lia. }
      exists rho3. split; [|split].
      + intros x Hx'. rewrite R1 by lia. apply C1. lia.
      + rewrite hold_app, hold_cons. split; [|split; [|done]].
        * eapply hold_ext; [|exact C2]. intros n y Hn' Hy. symmetry. apply R1. by eapply B3.
        * unfold Spec.holds, G. cbn [nkind nins nouts map]. rewrite (R1 q') by (by eapply B2). rewrite <-(C3 _ _ Eq').
          replace (map rho3 es') with evs; [replace (map rho3 (seq next1 k)) with vs|].
          -- apply Hgam; [rewrite <-F4; by rewrite map_length|]. by rewrite F3.
          -- rewrite <-D. apply map_ext_in. intros x Hx'%elem_of_list_In. apply elem_of_seq in Hx'. symmetry. apply X1. lia.
          -- rewrite <-F4. rewrite (maps_agree _ _ _ _ _ C3 Ees'0). apply map_ext_in. intros y Hy%elem_of_list_In. symmetry. apply R1. apply elem_of_list_lookup in Hy as [i Hi]. destruct (Forall2_lookup_r _ _ _ _ _ Ees'0 Hi) as (z & _ & Hz). by eapply B2.
      + eapply (sel_picks pre posts xr es gouts Hra Hro Hlp); [exact Hn2 | exact Heo | exact Erp | exact X3|]. by rewrite X4.
    - intros rho' Hh. rewrite hold_app, hold_cons in Hh. destruct Hh as (Hh1 & Hh2 & Hh3). constructor. apply Hloop.
      destruct (copy_bwd other content _ _ _ _ _ _ _ EP1 Hn1 Hl1 rho' rho' Hh1) as [D1 D2].
      exists (rho' q'), (map rho' es'), (map rho' (seq next1 k)), (map (pull s7 rho' (fun _ => content (VCtl 0))) (rres xe)). split; [|split; [|split]].
      + exists (pull s1 rho' rho'). split; [done|]. split; [done|]. split; [by apply pull_agree|]. eapply maps_agree; [|exact Ees'0]. intros x y. apply pull_agree.
      + apply Hgam; [rewrite map_length; by rewrite <-(Forall2_length _ _ _ Ees'0)|]. exact Hh2.
      + by apply (sub_bwd other content pre posts xr es gouts Hra Hro Hlp xe next1 X s7 next7).
      + by apply (picks_sel pre posts xr es gouts Hra Hro Hlp).
  Qed.
End Parent.
