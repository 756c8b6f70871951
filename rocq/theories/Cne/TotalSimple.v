(** Marking a simple node for the first time: it succeeds, and equal computations end up in one set. *)
From stdpp Require Import base list list_numbers fin_sets gmap.
From Verif.Rvsdg Require Import Model Spec Sem Wf WfFacts Args Divert Local.
From Verif.Ivr Require Import Model.
From Verif.Cne Require Import Model Spec ProofsSem ProofsState Just Pre ProofsSimple.

Lemma same_op_iff n m : is_simple n = true -> same_op (nkind n) (nkind m) = true <-> nkind n = nkind m.
Proof.
  unfold is_simple, same_op. destruct (nkind n), (nkind m); try done; intros _; rewrite bool_decide_eq_true; split; congruence.
Qed.
Lemma all_same_set_iff σ l l' : SW σ -> (forall x, x ∈ l -> marked σ x) -> (forall x, x ∈ l' -> marked σ x) -> lead σ <$> l = lead σ <$> l' -> all_same_set σ l l' = true.
Proof.
  intros Hw. revert l'. induction l as [|x l IH]; intros [|y l'] Hl Hl' He; try done. cbn [all_same_set]. rewrite !fmap_cons in He. injection He as He1 He2. apply andb_true_iff. split.
  - unfold same_set. assert (Hx : marked σ x) by (apply Hl; left). assert (Hy : marked σ y) by (apply Hl'; left). rewrite (lead_inj _ _ _ Hw Hx Hy He1). destruct Hy as [j ->]. by apply bool_decide_eq_true.
  - apply IH; [intros z Hz; apply Hl; by right | intros z Hz; apply Hl'; by right | done].
Qed.
Lemma fmap_self (f : oid -> oid) (l : list oid) : (forall x, x ∈ l -> f x = x) -> f <$> l = l.
Proof. intros H. induction l as [|x l IH]; [done|]. rewrite fmap_cons, IH; [rewrite H; [done | left] | intros y Hy; apply H; by right]. Qed.
Lemma add_follower_fresh i o σ : cmap σ !! o = None -> add_follower i o σ = Some (CState (leads σ) (<[o := i]> (cmap σ))).
Proof. unfold add_follower. by intros ->. Qed.
Lemma follow_list_total (l : list (oid * oid)) σ : NoDup l.*2 -> (forall x, x ∈ l.*1 -> marked σ x) -> (forall x, x ∈ l.*2 -> cmap σ !! x = None) ->
  exists σ', foldl (fun σ '(l, o) => σ ← σ; i ← cmap σ !! l; add_follower i o σ) (Some σ) l = Some σ'.
Proof.
  revert σ. induction l as [|[x o] l IH]; intros σ Hn Hm Hu; cbn [foldl]; [by eexists|]. rewrite fmap_cons in Hn, Hm, Hu. cbn [fst snd] in *. apply NoDup_cons in Hn as [Hn1 Hn2]. destruct (Hm x ltac:(left)) as [i Hi]. cbn [mbind option_bind]. rewrite Hi. cbn [mbind option_bind].
  rewrite add_follower_fresh by (apply Hu; left). apply IH; [done | |]; cbn [cmap].
  - intros y Hy. unfold marked. cbn [cmap]. destruct (decide (y = o)) as [->|Hne]; [rewrite lookup_insert; by eexists | rewrite lookup_insert_ne by done; apply Hm; by right].
  - intros y Hy. rewrite lookup_insert_ne by (by intros ->). apply Hu. by right.
Qed.
Lemma follow_total m n σ : length (nouts m) = length (nouts n) -> NoDup (nouts n) -> (forall x, x ∈ nouts m -> marked σ x) -> (forall x, x ∈ nouts n -> cmap σ !! x = None) -> exists σ', follow_node m n σ = Some σ'.
Proof.
  intros Hl Hn Hm Hu. unfold follow_node. rewrite decide_True by done. assert (Hz1 : (zip (nouts m) (nouts n)).*1 = nouts m) by (apply fst_zip; lia). assert (Hz2 : (zip (nouts m) (nouts n)).*2 = nouts n) by (apply snd_zip; lia).
  apply follow_list_total; [by rewrite Hz2 | by rewrite Hz1 | by rewrite Hz2].
Qed.

Section Simple.
  Context (choose : cstate -> list nat -> option nat) (Hch : forall σ l, match choose σ l with Some x => x ∈ l | None => l = [] end).
  Context (ns : list node) (Hown : NoDup (own ns)) (Hids : NoDup (map nid ns)).
  Context (Hop : forall m n, m ∈ ns -> n ∈ ns -> is_simple n = true -> nkind m = nkind n -> length (nins m) = length (nins n) -> length (nouts m) = length (nouts n)).
  (** every visited simple node has a visited node that computes the same and leads; the leader is unique *)
  Definition crep (σ : cstate) (pre tops : list node) : Prop := forall m, m ∈ pre -> is_simple m = true ->
    exists m0, m0 ∈ pre /\ is_simple m0 = true /\ nkind m0 = nkind m /\ lead σ <$> nins m = lead σ <$> nins m0 /\ lead σ <$> nouts m = nouts m0 /\ (nins m = [] -> m0 ∈ tops).
  Definition csimple (s : oid -> oid) (pre : list node) : Prop := forall m n, m ∈ pre -> n ∈ pre -> is_simple m = true -> nkind m = nkind n -> s <$> nins m = s <$> nins n -> s <$> nouts m = s <$> nouts n.
  (** what marking n adds *)
  Definition cnew (σ' : cstate) (pre tops : list node) (n : node) : Prop := (forall o, o ∈ nouts n -> marked σ' o) /\
    (exists m0, (m0 ∈ pre \/ m0 = n) /\ is_simple m0 = true /\ nkind m0 = nkind n /\ lead σ' <$> nins n = lead σ' <$> nins m0 /\ lead σ' <$> nouts n = nouts m0 /\ (nins n = [] -> m0 ∈ tops)) /\
    forall m, m ∈ pre -> nkind m = nkind n -> lead σ' <$> nins m = lead σ' <$> nins n -> lead σ' <$> nouts m = lead σ' <$> nouts n.

  Context (σ : cstate) (pre tops : list node) (n : node) (Hw : SW σ) (Hn : n ∈ ns) (Hnp : n ∉ pre) (Hpre : forall m, m ∈ pre -> m ∈ ns) (Hs : is_simple n = true).
  Context (Hin : forall x, x ∈ nins n -> marked σ x /\ x ∉ nouts n) (Hip : forall m x, m ∈ pre -> x ∈ nins m -> marked σ x /\ x ∉ nouts n) (Hmk : forall m x, m ∈ pre -> x ∈ nouts m -> marked σ x).
  Context (Hu : forall o, o ∈ nouts n -> cmap σ !! o = None) (Hrest : forall m o, m ∈ ns -> o ∈ nouts m -> marked σ o -> m ∈ pre).
  Context (Hrep : crep σ pre tops) (Huq : csimple (lead σ) pre).
  Lemma agree_ins σ' m : ext σ σ' (nouts n) -> m ∈ pre \/ m = n -> lead σ' <$> nins m = lead σ <$> nins m.
  Proof using All.
    clear -Hw Hin Hip. intros He Hm. apply agree_fmap. intros x Hx. eapply ext_lead; [done | exact He|]. destruct Hm as [Hm| ->]; [by eapply Hip | by apply Hin].
  Qed.
  Lemma agree_outs σ' m : ext σ σ' (nouts n) -> m ∈ pre -> lead σ' <$> nouts m = lead σ <$> nouts m.
  Proof using All.
    clear -Hw Hn Hnp Hpre Hown. intros He Hm. apply agree_fmap. intros x Hx. eapply ext_lead; [done | exact He|]. intros Hx'. apply Hnp. rewrite (out_unique ns Hown n m x); auto.
  Qed.
  Lemma same_len m : m ∈ pre -> nkind m = nkind n -> lead σ <$> nins m = lead σ <$> nins n -> length (nouts m) = length (nouts n).
  Proof using All. clear -Hop Hn Hpre Hs. intros Hm Hk He. apply (f_equal length) in He. rewrite !fmap_length in He. apply Hop; auto. Qed.
  Lemma cnew_empty tops' : nouts n = [] -> (nins n = [] -> n ∈ tops') -> cnew σ pre tops' n.
  Proof using All.
    intros He Ht. split; [rewrite He; by intros o ?%elem_of_nil|]. split; [exists n; rewrite He; repeat (split; [auto|]); done|]. intros m Hm Hk Hi. pose proof (same_len m Hm Hk Hi) as Hl. rewrite He in *. by destruct (nouts m).
  Qed.
  Lemma cnew_lead tops' : (forall m, m ∈ pre -> nkind m = nkind n -> lead σ <$> nins m = lead σ <$> nins n -> False) -> (nins n = [] -> n ∈ tops') -> cnew (make_leaders (nouts n) σ) pre tops' n.
  Proof using All.
    intros Hno Ht. destruct (make_leaders_spec (nouts n) σ Hw) as (H1 & H2 & H3). split; [intros o Ho; by apply H3|]. split.
    - exists n. split; [by right|]. split; [done|]. split; [done|]. split; [done|]. split; [|done]. apply fmap_self. intros x Hx. by apply H3.
    - intros m Hm Hk He. exfalso. apply (Hno m Hm Hk). rewrite <-(agree_ins _ m H2), <-(agree_ins _ n H2) by auto. done.
  Qed.
  Lemma cnew_follow m' : m' ∈ pre -> nkind m' = nkind n -> lead σ <$> nins n = lead σ <$> nins m' -> lead σ <$> nouts m' = nouts m' -> (nins n = [] -> m' ∈ tops) -> exists σ', follow_node m' n σ = Some σ' /\ cnew σ' pre tops n.
  Proof using All.
    intros Hm Hk Hi Hl Ht. pose proof (same_len m' Hm Hk ltac:(done)) as Hlen. destruct (follow_total m' n σ) as [σ' H]; [done | by apply (out_nodup ns Hown) | intros x Hx; by eapply Hmk | done|]. exists σ'. split; [done|].
    apply follow_node_spec in H as (H1 & H2 & H3 & H4); [|done | by apply (out_nodup ns Hown) |]. 2:{ intros x Hx Hx'. apply Hnp. rewrite (out_unique ns Hown n m' x); auto. }
    assert (Ho : lead σ' <$> nouts n = nouts m').
    { rewrite <-Hl. apply list_eq. intros k. rewrite !list_lookup_fmap. destruct (nouts n !! k) as [o|] eqn:Eo.
      - destruct (lookup_lt_is_Some_2 (nouts m') k) as [x Hx]; [rewrite H1; by eapply lookup_lt_Some|]. rewrite Hx. cbn. f_equal. by eapply H4.
      - apply lookup_ge_None in Eo. rewrite <-H1 in Eo. apply lookup_ge_None in Eo. by rewrite Eo. }
    split; [|split].
    - intros o [k Hk']%elem_of_list_lookup. destruct (lookup_lt_is_Some_2 (nouts m') k) as [x Hx]; [rewrite H1; by eapply lookup_lt_Some|]. by eapply H4.
    - exists m'. split; [by left|]. split; [unfold is_simple in *; by rewrite Hk|]. split; [done|]. split; [|split; [done | done]]. rewrite !(agree_ins σ') by auto. done.
    - intros m Hm' Hkm He. rewrite !(agree_ins σ') in He by auto. rewrite (agree_outs σ' m H3 Hm'), Ho, <-Hl. apply Huq; [done | done | unfold is_simple in *; by rewrite Hkm | congruence | congruence].
  Qed.
  Lemma self_led m : m ∈ ns -> is_simple m = true -> (forall x, x ∈ nouts m -> marked σ x) -> lead σ <$> nouts m = nouts m -> exists m', leader_node σ ns m = Some (Some m') /\ nid m' = nid m.
  Proof using All.
    clear -Hw Hown. intros Hm Hsm Hmk He. unfold leader_node. destruct (nouts m) as [|o l] eqn:Eo; [by eexists|]. destruct (Hmk o ltac:(left)) as [i Hi]. rewrite Hi. rewrite fmap_cons in He. injection He as He _. pose proof (lead_set _ _ _ Hw Hi) as Hl. rewrite He in Hl. rewrite Hl. cbn [mbind option_bind].
    destruct (list_find (fun m0 => is_simple m0 = true /\ o ∈ nouts m0) ns) as [[j m']|] eqn:Ef.
    - apply list_find_Some in Ef as (F1 & [F2 F3] & _). cbn [mbind option_bind]. exists m'. split; [done|]. f_equal. apply (out_unique ns Hown m' m o); [by eapply elem_of_list_lookup_2 | done | done | rewrite Eo; left].
    - exfalso. apply list_find_None in Ef. rewrite Forall_forall in Ef. apply (Ef m Hm). rewrite Eo. split; [done | left].
  Qed.
  Lemma rep_self m : m ∈ pre -> is_simple m = true -> lead σ <$> nouts m = lead σ <$> (lead σ <$> nouts m).
  Proof using All. clear -Hw. intros _ _. rewrite <-list_fmap_compose. apply list_fmap_ext. intros i x _. symmetry. by apply lead_idem. Qed.
  Lemma fresh_leader : nouts n <> [] -> leader_node σ ns n = Some None.
  Proof using All. clear -Hu. unfold leader_node. destruct (nouts n) as [|o l]; [done|]. intros _. by rewrite (Hu o ltac:(left)). Qed.
  Lemma congruent_iff m : m ∈ pre -> nkind m = nkind n -> lead σ <$> nins m = lead σ <$> nins n -> congruent σ n m = true.
  Proof using All.
    clear -Hw Hin Hip Hs. intros Hm Hk He. unfold congruent. apply andb_true_iff. split; [by apply same_op_iff|]. apply all_same_set_iff; [done | intros x Hx; by apply Hin | intros x Hx; by eapply Hip | done].
  Qed.
  Lemma congruent_inv m : congruent σ n m = true -> nkind m = nkind n /\ lead σ <$> nins n = lead σ <$> nins m.
  Proof using All. clear -Hw Hs. unfold congruent. intros [H1 H2]%andb_true_iff. apply same_op_iff in H1; [|done]. split; [done|]. by apply all_same_set_lead. Qed.
  Lemma mark_simple_total : nins n <> [] -> exists σ', mark_simple choose ns n σ = Some σ' /\ cnew σ' pre tops n.
  Proof using All.
    intros Hne. unfold mark_simple. destruct (decide (nouts n = [])) as [Ho|Ho].
    - unfold leader_node. rewrite Ho. cbn [mbind option_bind stays]. rewrite bool_decide_eq_true_2 by done. cbn [orb]. exists σ. split; [done|]. by apply cnew_empty.
    - rewrite fresh_leader by done. cbn [mbind option_bind stays]. set (L := filter _ _). pose proof (Hch σ L) as HL. destruct (choose σ L) as [i|].
      + unfold L in HL. apply elem_of_list_filter in HL as [HL _]. destruct (ns !! i) as [m'|] eqn:Em; [|done]. cbn [mbind option_bind]. unfold candidate in HL. apply andb_true_iff in HL as [HL E4]. apply andb_true_iff in HL as [HL E3]. apply andb_true_iff in HL as [E1 E2].
        apply elem_of_list_lookup_2 in Em. destruct (leader_node σ ns m') as [[m2|]|] eqn:El; [|done|done]. apply bool_decide_eq_true in E4. destruct (congruent_inv _ E3) as [Hk Hi].
        assert (Hlen : length (nouts m') = length (nouts n)). { apply Hop; [done | done | done | done|]. apply (f_equal length) in Hi. by rewrite !fmap_length in Hi. }
        destruct (leader_node_spec _ _ _ _ Hw El) as [[Hno _]|(o & Ho' & Hmo & Hm2 & Hs2 & Hlo)]; [rewrite Hno in Hlen; by destruct (nouts n)|].
        assert (Hp' : m' ∈ pre) by (eapply Hrest; [done | by eapply elem_of_list_lookup_2 | done]). assert (m2 = m') as -> by (by eapply nid_unique). apply cnew_follow; [done | done | done | | by intros ?].
        destruct (Hrep m' Hp' E1) as (m0 & Hm0 & Hsm0 & Hk0 & Hi0 & Hl0 & _). assert (m0 = m') as ->; [|done]. apply (out_unique ns Hown m0 m' (lead σ o)); [auto | done | | done]. rewrite <-Hl0. apply elem_of_list_fmap. exists o. split; [done | by eapply elem_of_list_lookup_2].
      + exists (make_leaders (nouts n) σ). split; [done|]. apply cnew_lead; [|done]. intros m Hm Hk Hi. destruct (Hrep m Hm) as (m0 & Hm0 & Hsm0 & Hk0 & Hi0 & Hl0 & _); [unfold is_simple in *; by rewrite Hk|].
        assert (HinL : exists i, i ∈ L); [|destruct HinL as [i HinL]; rewrite HL in HinL; by apply elem_of_nil in HinL]. pose proof (Hpre _ Hm0) as Hm0n. apply elem_of_list_lookup in Hm0n as [i Hi']. exists i. unfold L. apply elem_of_list_filter. rewrite Hi'. split; [|apply elem_of_seq; apply lookup_lt_Some in Hi'; lia].
        unfold candidate. rewrite Hsm0. cbn [andb]. rewrite congruent_iff; [|done | congruence | congruence]. assert (Hnid : nid m0 <> nid n). { intros He. apply Hnp. by rewrite (nid_unique ns n m0) by auto. } rewrite bool_decide_eq_false_2 by done. cbn [negb andb].
        destruct (self_led m0) as (m' & -> & Hid); [auto | done | intros x Hx; by eapply Hmk | |by apply bool_decide_eq_true]. rewrite <-Hl0. symmetry. apply (rep_self m Hm). unfold is_simple in *. by rewrite Hk.
  Qed.
  Lemma mark_top_total : nins n = [] -> (forall m, m ∈ tops -> m ∈ pre /\ forall o, o ∈ nouts m -> lead σ o = o) -> exists tops' σ', mark_top ns n tops σ = Some (tops', σ') /\ cnew σ' pre tops' n /\ (forall m, m ∈ tops -> m ∈ tops').
  Proof using All.
    intros Hne Htop. unfold mark_top. assert (Happ : forall m, m ∈ tops -> m ∈ tops ++ [n]) by (intros m Hm; apply elem_of_app; by left). assert (Hlast : n ∈ tops ++ [n]) by (apply elem_of_app; right; left). destruct (decide (nouts n = [])) as [Ho|Ho].
    - unfold leader_node. rewrite Ho. cbn [mbind option_bind stays]. rewrite bool_decide_eq_true_2 by done. cbn [orb]. rewrite decide_True by done. exists (tops ++ [n]), σ. split; [done|]. split; [by apply cnew_empty | done].
    - rewrite fresh_leader by done. cbn [mbind option_bind stays]. destruct (list_find (fun m => congruent σ n m = true) tops) as [[i m']|] eqn:Ef.
      + apply list_find_Some in Ef as (F1 & F2 & _). apply elem_of_list_lookup_2 in F1. destruct (Htop m' F1) as [Hp' Hl']. destruct (congruent_inv _ F2) as [Hk Hi]. destruct (cnew_follow m') as (σ' & Hf & Hc); [done | done | done | | done|].
        { by apply fmap_self. }
        exists tops, σ'. rewrite Hf. done.
      + exists (tops ++ [n]), (make_leaders (nouts n) σ). split; [done|]. split; [|done]. apply cnew_lead; [|done]. intros m Hm Hk Hi. assert (Hmi : nins m = []) by (rewrite Hne in Hi; by apply fmap_nil_inv in Hi).
        destruct (Hrep m Hm) as (m0 & Hm0 & Hsm0 & Hk0 & Hi0 & Hl0 & Ht0); [unfold is_simple in *; by rewrite Hk|]. apply list_find_None in Ef. rewrite Forall_forall in Ef. apply (Ef m0 (Ht0 Hmi)). apply congruent_iff; [done | congruence | congruence].
  Qed.
  (** and afterwards *)
  Lemma crep_step σ' tops' : SW σ' -> ext σ σ' (nouts n) -> cnew σ' pre tops' n -> (forall m, m ∈ tops -> m ∈ tops') -> crep σ' (pre ++ [n]) tops' /\ csimple (lead σ') (pre ++ [n]).
  Proof using All.
    intros Hw' He (N1 & (m0 & N2 & N3 & N4 & N5 & N6 & N7) & N8) Ht. split.
    - intros m [Hm| ->%elem_of_list_singleton]%elem_of_app Hsm.
      + destruct (Hrep m Hm Hsm) as (m1 & H1 & H2 & H3 & H4 & H5 & H6). exists m1. split; [apply elem_of_app; by left|]. split; [done|]. split; [done|]. rewrite !(agree_ins σ') by auto. rewrite (agree_outs σ') by done. auto.
      + exists m0. split; [apply elem_of_app; destruct N2 as [?| ->]; [by left | right; left]|]. auto.
    - intros m m' [Hm| ->%elem_of_list_singleton]%elem_of_app [Hm'| ->%elem_of_list_singleton]%elem_of_app Hsm Hk Hi.
      + rewrite !(agree_ins σ') in Hi by auto. rewrite !(agree_outs σ') by done. by apply Huq.
      + by apply N8.
      + symmetry. by apply N8.
      + done.
  Qed.
End Simple.
