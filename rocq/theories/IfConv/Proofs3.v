(** One gamma node in its region. *)
From stdpp Require Import base list gmap.
From Coq Require Import ZArith Lia.
From Verif.LocalRegion Require Import Model Spec Facts.
From Verif.Unswitch Require Import Model Spec Proofs1 Proofs3 Proofs7.
From Verif.IfConv Require Import Model Spec Proofs1 Proofs2.
Open Scope nat_scope.

Lemma arg_index_lookup r y i : arg_index r y = Some i -> rargs r !! i = Some y.
Proof. unfold arg_index. destruct (list_find _ _) as [[j a]|] eqn:E; [|done]. cbn. intros [= <-]. by apply list_find_Some in E as (E & <- & _). Qed.
Lemma elem_zip {A B} (l : list A) (k : list B) x y : (x, y) ∈ zip l k <-> exists j, l !! j = Some x /\ k !! j = Some y.
Proof.
  rewrite elem_of_list_lookup. split.
  - intros [j H]. exists j. by apply lookup_zip_with_Some in H as (a & b & [= <- <-] & H1 & H2).
  - intros (j & H1 & H2). exists j. apply lookup_zip_with_Some. by exists x, y.
Qed.
Lemma divert_cases olds : forall ys x, length olds = length ys -> (x ∉ olds /\ divert olds ys x = x) \/ exists j, olds !! j = Some x /\ ys !! j = Some (divert olds ys x).
Proof.
  intros ys x Hl. destruct (decide (x ∈ olds)) as [Hx|Hx]; [right | left; split; [done | by apply divert_out]].
  unfold divert. assert (H : forall acc, (exists j, olds !! j = Some x /\ ys !! j = Some (foldl (fun (y : nat) (d : nat * nat) => if decide (x = d.1) then d.2 else y) acc (zip olds ys))) \/
    foldl (fun (y : nat) (d : nat * nat) => if decide (x = d.1) then d.2 else y) acc (zip olds ys) = acc /\ x ∉ olds).
  { clear Hx. revert ys Hl. induction olds as [|z olds IH]; intros ys Hl acc; [right; split; [done | by intros ?%elem_of_nil]|]. destruct ys as [|u ys]; [done|]. cbn [zip zip_with foldl fst snd]. destruct (IH ys ltac:(cbn in Hl; lia) (if decide (x = z) then u else acc)) as [(j & H1 & H2)|[H1 H2]].
    - left. by exists (S j).
    - rewrite H1. destruct (decide (x = z)) as [->|Hne]; [left; by exists 0 | right; split; [done|]]. intros [H|H]%elem_of_cons; done. }
  destruct (H x) as [H1|[_ H1]]; done.
Qed.
Lemma lookup_map {B} (f : nat -> B) (l : list nat) i : map f l !! i = f <$> l !! i.
Proof. apply list_lookup_fmap. Qed.
Lemma map_id_on (f : nat -> nat) (l : list nat) : (forall x, x ∈ l -> f x = x) -> map f l = l.
Proof. intros H. induction l as [|x l IH]; [done|]. cbn. rewrite IH by (intros y Hy; apply H; by right). f_equal. apply H. by left. Qed.

Section Region.
  Context (other : nat -> list val -> option (list val)) (content : val -> val).
  Local Notation holds := (holds other content).
  Local Notation hold := (hold other content).
  Local Notation runs := (runs other content).

  Lemma gamma_routes rho r0 r1 q es outs : wf_gamma (Node (KGamma [r0; r1]) (q :: es) outs) -> holds rho (Node (KGamma [r0; r1]) (q :: es) outs) ->
    exists k, rho q = VCtl k /\ k < 2 /\ forall x y0 y1 o0 o1, (x, (y0, y1)) ∈ zip outs (zip (rres r0) (rres r1)) -> routed es r0 r1 y0 y1 o0 o1 -> rho x = choice k (rho o0) (rho o1).
  Proof.
    intros (_ & Hw) Hh. unfold Spec.holds in Hh. cbn [nkind nins nouts map] in Hh. apply gamma_inv in Hh as (k & r & vs0 & E & Hk & Hr). injection E as Eq <-. exists k. split; [done|]. split; [apply lookup_lt_Some in Hk; done|].
    intros x y0 y1 o0 o1 Hz (i0 & i1 & A0 & A1 & O0 & O1). apply elem_zip in Hz as (j & Hx & Hy). apply lookup_zip_with_Some in Hy as (y0' & y1' & [= <- <-] & Hy0 & Hy1). apply runs_iff in Hr as (rho' & E1 & _ & E2).
    assert (Hj : forall y, rres r !! j = Some y -> rho' y = rho x). { intros y Hy. assert (H1 : map rho' (rres r) !! j = Some (rho' y)) by (by rewrite lookup_map, Hy). rewrite E2, lookup_map, Hx in H1. by injection H1. }
    assert (Ha : forall y i o, arg_index r y = Some (S i) -> es !! i = Some o -> rho' y = rho o). { intros y i o Hy Ho. apply arg_index_lookup in Hy. assert (H1 : map rho' (rargs r) !! S i = Some (rho' y)) by (by rewrite lookup_map, Hy). rewrite E1 in H1. change (map rho es !! i = Some (rho' y)) in H1. rewrite lookup_map, Ho in H1. by injection H1. }
    destruct k as [|[|k]]; cbn in Hk; [| |done]; injection Hk as <-; unfold choice; cbn.
    - rewrite <-(Hj _ Hy0). by eapply Ha.
    - rewrite <-(Hj _ Hy1). by eapply Ha.
  Qed.
  Lemma decides_ok rho l q k : rho q = VCtl k -> k < 2 -> (forall m, owner l q = Some m -> holds rho m) -> decides l q rho k.
  Proof.
    intros Hq Hk Hm. split; [done|]. split; [done|]. intros w m d mo rest outs Ho. specialize (Hm _ Ho). apply owner_ok in Ho as [_ Hin]. cbn [nouts] in Hin. apply holds_simple in Hm. cbn [map op_sem] in Hm. destruct (rho mo) as [|w' z|]; try done. destruct rest; cbn in Hm; [|done].
    destruct (decide (w' = w /\ (0 <= z < 2 ^ w)%Z)) as [[-> Hz]|]; [|done]. injection Hm as Hm. exists z. split; [done|]. split; [done|]. symmetry in Hm. pose proof (one_out _ _ _ _ Hm Hin) as Hv. rewrite Hq in Hv. by injection Hv.
  Qed.

  Section One.
    Context (A : list nat) (l : list node) (res : list nat).
    Let r := Region A l res.
    Context (r0 r1 : region) (q : nat) (es outs : list nat).
    Let g := Node (KGamma [r0; r1]) (q :: es) outs.
    Context (news : list node) (olds ys : list nat).
    Let next := region_bound r.
    Let ts := zip outs (zip (rres r0) (rres r1)).
    Hypothesis Hgood : good_region r.
    Hypothesis Hg : g ∈ l.
    Hypothesis Hc : convert_outs l q es r0 r1 ts next = Some (news, olds, ys).
    Let f := divert olds ys.
    Lemma names_below x : x ∈ names r -> x < next.
    Proof using. apply region_bound_ok. Qed.
    Lemma ts_outs x p : (x, p) ∈ ts -> x ∈ outs.
    Proof using. intros H. apply elem_zip in H as (j & H & _). by eapply elem_of_list_lookup_2. Qed.
    Lemma owner_good : good_owner l q.
    Proof using Hgood Hg.
      intros n Hn. apply owner_ok in Hn as [Hn Hq]. destruct Hgood as (_ & _ & (ty & T1 & T2 & _) & Hk). cbn [rnodes r] in *. split; [by apply Hk|]. intros w m d E p Hp. destruct n as [k ins mouts]. cbn in E, Hq. subst k. pose proof (T2 _ _ _ _ _ _ _ Hn Hq Hp) as H2. pose proof (T1 [r0; r1] q es outs Hg) as H1. cbn in H1. lia.
    Qed.
    Lemma base_rank (rank : nat -> nat) : (forall n x y, n ∈ l -> x ∈ nins n -> y ∈ nouts n -> rank x < rank y) -> forall x y, base l q es x -> y ∈ outs -> rank x < rank y.
    Proof using Hg.
      intros H x y Hb Hy. destruct Hb as [->|[Hx|(m & Hm & Hx)]]; [apply (H g); [done | by left | done] | apply (H g); [done | by right | done]|]. apply owner_ok in Hm as [Hm Hq]. transitivity (rank q); [by apply (H m) | apply (H g); [done | by left | done]].
    Qed.
    Lemma base_out x : base l q es x -> x ∉ outs.
    Proof using Hgood Hg. destruct Hgood as (_ & (rank & R1 & _) & _). cbn [rnodes r] in R1. intros Hb Hx. pose proof (base_rank rank R1 x x Hb Hx). lia. Qed.
    Lemma base_names x : base l q es x -> x ∈ names r.
    Proof using Hgood Hg.
      destruct Hgood as ((_ & Hu & _) & _). cbn [rnodes r] in Hu. intros [->|[Hx|(m & Hm & Hx)]]; [apply (Hu g); [done | by left] | apply (Hu g); [done | by right]|]. apply owner_ok in Hm as [Hm _]. by apply (Hu m).
    Qed.
    Lemma conv : made l q es next news /\ length olds = length ys /\ (forall x, x ∈ olds -> x ∈ outs) /\ (forall y, y ∈ ys -> y ∈ es \/ next <= y < next + length news) /\ rights other content l q es r0 r1 ts news olds ys /\ exists_for other content l q es next news /\ types es r0 r1 ts next news olds ys.
    Proof using Hgood Hg Hc.
      destruct (convert_outs_ok other content l q es r0 r1 ts next news olds ys owner_good Hc) as (A1 & A2 & A3 & _ & A5 & A6 & A7 & A8). split; [done|]. split; [done|]. split; [intros x Hx; destruct (A3 x Hx) as [p Hp]; by eapply ts_outs|]. done.
    Qed.
    Lemma f_base x : base l q es x -> f x = x.
    Proof using other content Hgood Hg Hc. intros Hb. destruct conv as (_ & _ & H & _). apply divert_out. intros Hx. by apply (base_out x Hb), H. Qed.
    Lemma f_keeps n : n = g \/ owner l q = Some n -> divert_node f n = n.
    Proof using other content Hgood Hg Hc.
      intros H. destruct n as [k ins no]. unfold divert_node. cbn [nkind nins nouts]. f_equal. apply map_id_on. intros x Hx. apply f_base. destruct H as [H|H].
      - unfold g in H. injection H as -> -> ->. apply elem_of_cons in Hx as [->|Hx]; [by left | right; by left].
      - right. right. by eexists.
    Qed.
    Lemma news_below n x : n ∈ news -> x ∈ nouts n -> next <= x < next + length news.
    Proof using other content Hgood Hg Hc. intros Hn Hx. destruct conv as ((H & _) & _). assert (Hin : x ∈ all_outs news) by (apply elem_all_outs; by exists n). rewrite H in Hin. apply elem_of_seq in Hin. lia. Qed.
    Lemma wfg n : n ∈ l -> wf_gamma n.
    Proof using Hgood. intros H. by apply Hgood. Qed.
    (** where nodes hold, the pairs have the same values *)
    Lemma pairs_equal rho : holds rho g -> (forall m, owner l q = Some m -> holds rho m) -> hold rho news -> forall x, rho (f x) = rho x.
    Proof using other content Hgood Hg Hc.
      intros H1 H2 H3 x. destruct conv as (_ & Hl & _ & _ & Hr & _). destruct (divert_cases olds ys x Hl) as [[_ H]|(j & Hj & Hy)]; [unfold f; by rewrite H|]. fold f in Hy.
      destruct (gamma_routes rho r0 r1 q es outs (wfg _ Hg) H1) as (k & Hk & Hk2 & Hro). pose proof (decides_ok rho l q k Hk Hk2 H2) as Hd. destruct (Hr rho k Hd H3 j x _ Hj Hy) as (y0 & y1 & o0 & o1 & Ht & Hrt & ->). symmetry. by eapply Hro.
    Qed.
    Lemma divert_holds rho n : (forall x, rho (f x) = rho x) -> holds rho (divert_node f n) <-> holds rho n.
    Proof using. intros H. unfold Spec.holds, divert_node. cbn [nkind nins nouts]. rewrite map_map. by rewrite (map_ext (fun x => rho (f x)) rho H). Qed.
    Definition converted : region := Region A (map (divert_node f) l ++ news) (map f res).
    Lemma converted_same : same other content r converted.
    Proof using other content Hgood Hg Hc.
      intros vs ws. rewrite !runs_iff. unfold converted, r. cbn [rargs rnodes rres]. split.
      - intros (rho & E1 & Hh & E2). destruct conv as (_ & _ & _ & _ & _ & Hx & _). destruct (gamma_routes rho r0 r1 q es outs (wfg _ Hg) (Hh g Hg)) as (k & Hk & Hk2 & _).
        destruct (Hx rho k) as (rho' & D1 & D2); [apply decides_ok; [done | done|]; intros m Hm; apply Hh; by apply owner_ok in Hm as [Hm _] | intros x Hb; by apply names_below, base_names|].
        assert (Ha : forall x, x ∈ names r -> rho' x = rho x) by (intros x Hn; apply D1; left; by apply names_below).
        destruct Hgood as ((_ & Hu & Hr) & _). cbn [rnodes rres r] in Hu, Hr.
        assert (Hh' : hold rho' l). { eapply hold_ext; [|exact Hh]. intros n y Hn Hy. symmetry. apply Ha. apply elem_of_app in Hy as [Hy|Hy]; [by eapply Hu|]. apply elem_of_app. right. apply elem_all_outs. by exists n. }
        assert (Hp : forall x, rho' (f x) = rho' x) by (apply pairs_equal; [by apply Hh' | intros m Hm; apply Hh'; by apply owner_ok in Hm as [Hm _] | done]).
        exists rho'. split; [|split].
        + rewrite <-E1. apply map_ext_in. intros x Hx'%elem_of_list_In. apply Ha. apply elem_of_app. by left.
        + apply hold_app. split; [|done]. intros n Hn. apply elem_of_list_fmap in Hn as (m & -> & Hm). apply divert_holds; [done|]. by apply Hh'.
        + rewrite map_map, <-E2. apply map_ext_in. intros x Hx'%elem_of_list_In. rewrite Hp. by apply Ha, Hr.
      - intros (rho & E1 & Hh & E2). apply hold_app in Hh as [Hh1 Hh2].
        assert (Hp : forall x, rho (f x) = rho x).
        { apply pairs_equal; [| |done].
          - rewrite <-(f_keeps g) by (by left). apply Hh1. by apply (elem_of_list_fmap_1 (divert_node f)).
          - intros m Hm. rewrite <-(f_keeps m) by (by right). apply Hh1. apply (elem_of_list_fmap_1 (divert_node f)). by apply owner_ok in Hm as [Hm _]. }
        exists rho. split; [done|]. split.
        + intros n Hn. apply divert_holds; [done|]. apply Hh1. by apply (elem_of_list_fmap_1 (divert_node f)).
        + rewrite <-E2, map_map. apply map_ext. intros x. by rewrite Hp.
    Qed.
    Lemma all_outs_divert (h : nat -> nat) k : all_outs (map (divert_node h) k) = all_outs k.
    Proof using. induction k as [|n k IH]; [done|]. cbn [map]. by rewrite !all_outs_cons, IH. Qed.
    Lemma converted_names : names converted = names r ++ seq next (length news).
    Proof using other content Hgood Hg Hc. destruct conv as ((H & _) & _). unfold names, converted, r. cbn [rargs rnodes]. by rewrite all_outs_app, all_outs_divert, H, (assoc_L (++)). Qed.
    Lemma f_names x : x ∈ names r -> f x ∈ names converted.
    Proof using other content Hgood Hg Hc.
      intros Hx. rewrite converted_names. apply elem_of_app. destruct conv as (_ & Hl & _ & Hy & _). destruct (divert_cases olds ys x Hl) as [[_ H]|(j & _ & Hj)]; [left; unfold f; by rewrite H|]. fold f in Hj.
      destruct (Hy (f x)) as [He|Hn]; [by eapply elem_of_list_lookup_2 | left; apply base_names; right; by left | right; by apply elem_of_seq].
    Qed.
    Lemma g_outs x : x ∈ outs -> x ∈ names r.
    Proof using Hg. intros Hx. apply elem_of_app. right. apply elem_all_outs. by exists g. Qed.
    Lemma converted_good : good_region converted.
    Proof using other content Hgood Hg Hc.
      pose proof conv as ((M1 & M2 & M3) & Hl & Ho & Hy & _ & _ & Ht). pose proof Hgood as ((Wn & Wu & Wr) & (rank & R1 & R2) & (ty & T1 & T2 & T3) & Wk). cbn [rnodes rres rargs r] in Wu, Wr, R1, R2, T1, T2, T3, Wk.
      split; [split; [|split]|split; [|split]].
      - rewrite converted_names. apply NoDup_app. split; [done|]. split; [|apply NoDup_seq]. intros x Hx Hs. apply names_below in Hx. apply elem_of_seq in Hs. lia.
      - intros n x Hn Hx. cbn [rnodes converted] in Hn. apply elem_of_app in Hn as [Hn|Hn].
        + apply elem_of_list_fmap in Hn as (m & -> & Hm). cbn [nins divert_node] in Hx. apply elem_of_list_fmap in Hx as (y & -> & Hy'). apply f_names. by eapply Wu.
        + rewrite converted_names. apply elem_of_app. destruct (M3 n x Hn Hx) as [Hb|[Hb _]]; [left; by apply base_names | right; by apply elem_of_seq].
      - intros x Hx. cbn [rres converted] in Hx. apply elem_of_list_fmap in Hx as (y & -> & Hy'). apply f_names. by apply Wr.
      - set (M := length news + 1). set (mins := match owner l q with Some m => nins m | None => [] end). set (R := foldr max 0 (map rank (A ++ q :: es ++ mins))).
        assert (HR : forall x, base l q es x \/ x ∈ A -> rank x <= R).
        { intros x Hx. apply fold_max_in. apply elem_of_list_fmap. exists x. split; [done|]. apply elem_of_app. destruct Hx as [[->|[Hx|(m & Hm & Hx)]]|Hx]; [right; by left | right; right; apply elem_of_app; by left | | by left]. right. right. apply elem_of_app. right. unfold mins. by rewrite Hm. }
        assert (Hle : forall a b, a <= b -> M * a <= M * b) by (intros; by apply Nat.mul_le_mono_l).
        assert (Hlt : forall a b, a < b -> M * a + M <= M * b) by (intros a b Hab; replace (M * a + M) with (M * (a + 1)) by lia; apply Nat.mul_le_mono_l; lia).
        assert (HRo : forall y, y ∈ outs -> R < rank y).
        { intros y Hy'. assert (H : forall k, (forall x, x ∈ k -> rank x < rank y) -> 0 < rank y -> foldr max 0 (map rank k) < rank y). { induction k as [|a k IH]; intros Hk H0; [done|]. cbn. apply Nat.max_lub_lt; [apply Hk; by left | apply IH; [intros x Hx; apply Hk; by right | done]]. }
          apply H; [|pose proof (R1 g q y Hg ltac:(by left) Hy'); lia]. intros x Hx. apply elem_of_app in Hx as [Hx|Hx]; [by apply (R2 x g)|]. apply (base_rank rank R1); [|done]. apply elem_of_cons in Hx as [->|Hx]; [by left|]. apply elem_of_app in Hx as [Hx|Hx]; [right; by left|]. right. right. unfold mins in Hx. destruct (owner l q) as [m|]; [by exists m | by apply elem_of_nil in Hx]. }
        set (rank' := fun x => if decide (x < next) then M * rank x else M * R + 1 + (x - next)).
        assert (Hold : forall x, x ∈ names r -> rank' x = M * rank x) by (intros x Hx; unfold rank'; rewrite decide_True; [done | by apply names_below]).
        assert (Hnew : forall x, next <= x < next + length news -> M * R < rank' x < M * R + M) by (intros x Hx; unfold rank'; rewrite decide_False by lia; unfold M; lia).
        assert (Hf : forall x, x ∈ names r -> rank' (f x) <= M * rank x).
        { intros x Hx. destruct (divert_cases olds ys x Hl) as [[_ H]|(j & Hj & Hyj)]; [unfold f; rewrite H, Hold by done; lia|]. fold f in Hyj. assert (Hxo : x ∈ outs) by (apply Ho; by eapply elem_of_list_lookup_2). pose proof (HRo x Hxo).
          destruct (Hy (f x)) as [He|Hn]; [by eapply elem_of_list_lookup_2 | |].
          - assert (Hb : base l q es (f x)) by (right; by left). rewrite Hold by (by apply base_names). pose proof (HR (f x) (or_introl Hb)). apply Hle. lia.
          - pose proof (Hnew _ Hn). specialize (Hlt R (rank x) ltac:(done)). lia. }
        assert (HM : 0 < M) by (unfold M; lia). exists rank'. split.
        + intros n x y Hn Hx Hy'. cbn [rnodes converted] in Hn. apply elem_of_app in Hn as [Hn|Hn].
          * apply elem_of_list_fmap in Hn as (m & -> & Hm). cbn [nins nouts divert_node] in Hx, Hy'. apply elem_of_list_fmap in Hx as (z & -> & Hz). pose proof (Hf z (Wu m z Hm Hz)). pose proof (R1 m z y Hm Hz Hy'). rewrite (Hold y); [specialize (Hlt (rank z) (rank y) ltac:(done)); lia|]. apply elem_of_app. right. apply elem_all_outs. by exists m.
          * pose proof (news_below n y Hn Hy') as Hny. destruct (M3 n x Hn Hx) as [Hb|[Hb Hxy]].
            -- rewrite (Hold x) by (by apply base_names). pose proof (Hnew y Hny). pose proof (HR x (or_introl Hb)). specialize (Hle (rank x) R ltac:(done)). lia.
            -- specialize (Hxy y Hy'). unfold rank'. rewrite !decide_False by lia. lia.
        + intros a n y Ha Hn Hy'. cbn [rargs converted] in Ha. assert (Han : a ∈ names r) by (apply elem_of_app; by left). rewrite (Hold a Han). cbn [rnodes converted] in Hn. apply elem_of_app in Hn as [Hn|Hn].
          * apply elem_of_list_fmap in Hn as (m & -> & Hm). cbn [nouts divert_node] in Hy'. rewrite Hold by (apply elem_of_app; right; apply elem_all_outs; by exists m). pose proof (R2 a m y Ha Hm Hy'). specialize (Hlt (rank a) (rank y) ltac:(done)). lia.
          * pose proof (Hnew y (news_below n y Hn Hy')). pose proof (HR a (or_intror Ha)). specialize (Hle (rank a) R ltac:(done)). lia.
      - destruct (Ht ty) as (ty' & E1 & E2).
        { intros x y0 y1 o0 o1 Hx (i0 & i1 & A0 & A1 & O0 & O1). apply elem_zip in Hx as (j & Hx & Hy'). apply lookup_zip_with_Some in Hy' as (a & b & [= <- <-] & Ha & Hb). apply (T3 [r0; r1] q es outs r0 j i0 x y0 o0); [done | by left | done | done | by apply arg_index_lookup | done]. }
        { intros t Ht'. destruct t as [x p]. apply names_below, g_outs. by eapply ts_outs. }
        { intros x Hx. apply names_below, base_names. right. by left. }
        assert (Hold : forall x, x ∈ names r -> ty' x = ty x) by (intros x Hx; apply E1; left; by apply names_below).
        assert (Hf : forall x, x ∈ names r -> ty' (f x) = ty x). { intros x Hx. destruct (divert_cases olds ys x Hl) as [[_ H]|(j & Hj & Hyj)]; [unfold f; rewrite H; by apply Hold|]. by apply (E2 j). }
        exists ty'. cbn [rnodes converted]. split; [|split].
        + intros subs q' es' outs' Hn. apply elem_of_app in Hn as [Hn|Hn]; [|destruct (M2 _ Hn) as (o & Ho' & _); done]. apply elem_of_list_fmap in Hn as ([k ins o] & E & Hm). unfold divert_node in E. cbn [nkind nins nouts] in E. destruct ins as [|q0 es0]; [done|]. cbn [map] in E. injection E as <- -> -> ->. rewrite Hf; [by eapply T1|]. apply (Wu _ _ Hm). by left.
        + intros w m d ins o y p Hn Hyo Hp. apply elem_of_app in Hn as [Hn|Hn].
          * apply elem_of_list_fmap in Hn as ([k ins0 o0] & E & Hm). unfold divert_node in E. cbn [nkind nins nouts] in E. injection E as <- -> ->. rewrite Hold; [by eapply T2|]. apply elem_of_app. right. apply elem_all_outs. by eexists.
          * destruct (M2 _ Hn) as (o' & Ho' & _ & _ & Hne). cbn in Ho'. injection Ho' as <-. by destruct (Hne w m d).
        + intros subs q' es' outs' s j i x y o Hn Hs Hx Hy' Ha He. apply elem_of_app in Hn as [Hn|Hn]; [|destruct (M2 _ Hn) as (o' & Ho' & _); done]. apply elem_of_list_fmap in Hn as ([k ins o0] & E & Hm). unfold divert_node in E. cbn [nkind nins nouts] in E. destruct ins as [|q0 es0]; [done|]. cbn [map] in E. injection E as <- -> -> ->.
          rewrite lookup_map in He. destruct (es0 !! i) as [o'|] eqn:Eo; [|done]. cbn in He. injection He as <-. rewrite Hf; [|apply (Wu _ _ Hm); right; by eapply elem_of_list_lookup_2]. rewrite Hold; [by eapply T3|]. apply elem_of_app. right. apply elem_all_outs. eexists. split; [exact Hm|]. by eapply elem_of_list_lookup_2.
      - intros n Hn. cbn [rnodes converted] in Hn. apply elem_of_app in Hn as [Hn|Hn].
        + apply elem_of_list_fmap in Hn as (m & -> & Hm). destruct (Wk m Hm) as [H1 H2]. split; [|done]. unfold wf_gamma, divert_node in *. cbn [nkind nins nouts] in *. destruct (nkind m); try done. by rewrite map_length.
        + destruct (M2 n Hn) as (o & Hk & H1 & H2). split; [|done]. unfold wf_gamma. by rewrite Hk.
    Qed.
  End One.
End Region.
