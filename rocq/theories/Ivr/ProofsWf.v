(** The pass keeps modules well-formed, and leaves no user of an invariant output. *)
From stdpp Require Import base list list_numbers fin_sets gmap.
From Verif.Rvsdg Require Import Model Spec Sem Wf WfFacts ListFacts Args Chase.
From Verif.Dne Require Import Model ProofsList ProofsNode ProofsShrink.
From Verif.Ivr Require Import Model Spec ProofsRel.

Lemma prune_wf f (res : list oid) ns : forall av, wf_list f av ns -> Forall (fun x => x ∈ av ++ own ns) res ->
  wf_list f av (prune_list res ns) /\ Forall (fun x => x ∈ av ++ own (prune_list res ns)) res.
Proof.
  induction ns as [|n ns IH]; intros av; [done|]. cbn [wf_list]. rewrite own_cons, app_assoc. intros (H1 & H2 & H3) Hr. destruct (IH _ H3 Hr) as [IH1 IH2]. cbn [prune_list]. fold (prune_list res).
  destruct (existsb _ _) eqn:E.
  - cbn [wf_list]. rewrite own_cons, app_assoc. done.
  - assert (Hu : forall o, o ∈ nouts n -> is_used o (prune_list res ns) res = false).
    { intros o Ho. destruct (is_used o (prune_list res ns) res) eqn:Eu; [|done]. rewrite <-E. symmetry. apply existsb_exists. exists o. split; [by apply elem_of_list_In | done]. }
    split.
    + eapply wf_list_shrink; [exact IH1|]. intros n' x Hn' Hx [?|Ho]%elem_of_app; [done|]. exfalso. specialize (Hu x Ho). apply not_true_iff_false in Hu. apply Hu, is_used_iff. eauto.
    + rewrite Forall_forall in IH2 |- *. intros x Hx. pose proof (IH2 x Hx) as H. apply elem_of_app in H as [H|H]; [|apply elem_of_app; auto]. apply elem_of_app in H as [H|Ho]; [apply elem_of_app; auto|]. exfalso. specialize (Hu x Ho). apply not_true_iff_false in Hu. apply Hu, is_used_iff. auto.
Qed.

(** ** one divert *)
Lemma own_divert o x ns : own (divert_ins o x <$> ns) = own ns.
Proof. induction ns as [|n ns IH]; [done|]. rewrite fmap_cons, !own_cons, IH. by destruct n. Qed.
Lemma sub1_elem o x (l : list oid) y : y ∈ sub1 o x <$> l -> (y ∈ l /\ y <> o) \/ (y = x /\ o ∈ l).
Proof. rewrite elem_of_list_fmap. intros (z & -> & Hz). unfold sub1. case_decide; subst; auto. Qed.
Lemma nins_divert o x n : nins (divert_ins o x n) = sub1 o x <$> nins n.
Proof. by destruct n. Qed.
Lemma nouts_divert o x n : nouts (divert_ins o x n) = nouts n.
Proof. by destruct n. Qed.
Lemma divert_wf_list o x ns : forall av, (forall y, y ∈ av -> y ∈ own ns -> False) -> NoDup (own ns) -> wf_list wf_node av ns -> (exists n, n ∈ ns /\ o ∈ nouts n /\ x ∈ nins n) -> wf_list wf_node av (divert_ins o x <$> ns).
Proof.
  assert (Hav : forall ns av, o ∈ av -> x ∈ av -> wf_list wf_node av ns -> wf_list wf_node av (divert_ins o x <$> ns)).
  { induction ns0 as [|n ns0 IH]; intros av Ho Hx; [done|]. rewrite fmap_cons. cbn [wf_list]. rewrite nouts_divert, nins_divert. intros (H1 & H2 & H3). split; [|split].
    - rewrite Forall_forall in H1 |- *. intros y [[Hy _]|[-> _]]%sub1_elem; auto.
    - rewrite divert_dins. by apply wf_dins.
    - apply IH; [apply elem_of_app; auto | apply elem_of_app; auto | done]. }
  induction ns as [|n ns IH]; intros av Hd Hn; [done|]. rewrite fmap_cons. cbn [wf_list]. rewrite nouts_divert, nins_divert, own_cons in *. intros (H1 & H2 & H3) (n0 & Hn0 & Ho & Hx).
  apply NoDup_app in Hn as (_ & Hd2 & Hn). split; [|split].
  - rewrite Forall_forall in H1 |- *. intros y [[Hy _]|[-> Hy]]%sub1_elem; [auto|]. exfalso. apply (Hd o); [by apply H1|]. apply elem_of_app.
    apply elem_of_cons in Hn0 as [->|Hn0]; [by left|]. right. apply elem_of_own. eauto.
  - rewrite divert_dins. by apply wf_dins.
  - apply elem_of_cons in Hn0 as [->|Hn0].
    + rewrite Forall_forall in H1. apply Hav; [apply elem_of_app; auto | apply elem_of_app; auto | done].
    + apply IH; [|done|done|by exists n0]. intros y. rewrite elem_of_app. intros [Hy|Hy] Hy2; [apply (Hd y); [done | apply elem_of_app; auto] | by apply (Hd2 y)].
Qed.
Lemma divert_res o x ns (res av : list oid) : wf_list wf_node av ns -> (exists n, n ∈ ns /\ x ∈ nins n) -> Forall (fun y => y ∈ av ++ own ns) res -> Forall (fun y => y ∈ av ++ own ns) (sub1 o x <$> res).
Proof.
  intros Hw (n & Hn & Hx) Hr. rewrite Forall_forall in Hr |- *. intros y [[Hy _]|[-> Hy]]%sub1_elem; [auto|]. pose proof (wf_list_scope _ _ _ Hw) as Hs. rewrite Forall_forall in Hs. specialize (Hs n Hn). rewrite Forall_forall in Hs. auto.
Qed.

(** ** the state while a region is visited *)
Definition same (n n' : node) : Prop := nid n' = nid n /\ nkind n' = nkind n /\ nouts n' = nouts n /\ nsubs n' = nsubs n.
Record okst (av : list oid) (ns0 : list node) (st : list node * list oid) : Prop := Okst {
  ok_wf : wf_list wf_node av st.1;
  ok_res : Forall (fun x => x ∈ av ++ own st.1) st.2;
  ok_same : Forall2 same ns0 st.1;
  ok_disj : forall y, y ∈ av -> y ∈ own st.1 -> False;
  ok_nd : NoDup (own st.1) }.
Lemma self_input av ns n x : wf_list wf_node av ns -> (forall y, y ∈ av -> y ∈ own ns -> False) -> NoDup (own ns) -> n ∈ ns -> x ∈ nins n -> x ∈ nouts n -> False.
Proof.
  revert av. induction ns as [|m ns IH]; intros av; [by intros ??? ?%elem_of_nil|]. cbn [wf_list]. rewrite own_cons. intros (H1 & _ & H2) Hd (_ & Hd2 & Hn)%NoDup_app [->|Hin]%elem_of_cons Hx Ho.
  - rewrite Forall_forall in H1. apply (Hd x); [auto | apply elem_of_app; auto].
  - eapply IH; eauto. intros y. rewrite elem_of_app. intros [Hy|Hy] Hy2; [apply (Hd y); [done | apply elem_of_app; auto] | by apply (Hd2 y)].
Qed.
Lemma divert_ok av ns0 st o x : okst av ns0 st -> (exists n, n ∈ st.1 /\ o ∈ nouts n /\ x ∈ nins n) -> okst av ns0 (divert_users o x st.1 st.2).
Proof.
  intros [H1 H2 H3 H4 H5] Hn. split; cbn [divert_users fst snd]; rewrite ?own_divert; try done.
  - by apply divert_wf_list.
  - apply divert_res; [done | | done]. destruct Hn as (n & ? & _ & ?). eauto.
  - apply Forall2_fmap_r. eapply Forall2_impl; [exact H3|]. intros n [id k ins outs subs] (?&?&?&?). by repeat split.
Qed.
Definition used (o : oid) (st : list node * list oid) : Prop := o ∈ st.2 \/ exists n, n ∈ st.1 /\ o ∈ nins n.
Lemma divert_used o x st y : used y (divert_users o x st.1 st.2) -> (used y st /\ y <> o) \/ (y = x /\ used o st).
Proof.
  unfold used. cbn [divert_users fst snd]. intros [[[H1 H2]|[H1 H2]]%sub1_elem|(n & Hn & H)]; [auto|auto|]. apply elem_of_list_fmap in Hn as (m & -> & Hm). rewrite nins_divert in H. apply sub1_elem in H as [[H1 H2]|[H1 H2]]; eauto 6.
Qed.
(** the inputs of n, of which the origins come, are not changed by the diverts of its own outputs *)
Lemma divert_all_ok av ns0 L : forall st, okst av ns0 st -> (forall o x, (o, x) ∈ L -> exists n, n ∈ st.1 /\ o ∈ nouts n /\ x ∈ nins n) -> (forall x, x ∈ L.*2 -> x ∉ L.*1) ->
  okst av ns0 (divert_all L st) /\ forall y, used y (divert_all L st) -> (used y st /\ y ∉ L.*1) \/ y ∈ L.*2.
Proof.
  induction L as [|[o x] L IH]; intros st Hok HL Hd; [split; [done|]; intros y Hy; left; split; [done | by apply not_elem_of_nil]|]. unfold divert_all. cbn [foldl]. fold (divert_all L).
  assert (Hox : o <> x). { intros ->. apply (Hd x); cbn; left. }
  destruct (IH (divert_users o x st.1 st.2)) as [IH1 IH2].
  - apply divert_ok; [done|]. apply HL. left.
  - intros o2 x2 H2. destruct (HL o2 x2 ltac:(by right)) as (n & Hn & Ho & Hx). exists (divert_ins o x n). cbn [divert_users fst]. rewrite nouts_divert, nins_divert. split; [by apply elem_of_list_fmap_1|]. split; [done|].
    apply elem_of_list_fmap. exists x2. split; [|done]. unfold sub1. rewrite decide_False; [done|]. intros ->. apply (Hd o); cbn; [right; apply elem_of_list_fmap; by exists (o2, o) | left].
  - intros y Hy Hy2. apply (Hd y); cbn; by right.
  - split; [exact IH1|]. intros y Hy. destruct (IH2 y Hy) as [[Hy1 Hy2]|Hy1]; [|right; cbn; by right].
    apply divert_used in Hy1 as [[Hy1 Hy3]|[-> _]]; [|right; cbn; left]. left. split; [done|]. cbn. rewrite not_elem_of_cons. done.
Qed.
Lemma moves_spec cfg io n ns res o x : (o, x) ∈ moves cfg io n ns res -> o ∈ nouts n /\ x ∈ nins n.
Proof.
  destruct n as [id k ins outs subs]. cbn [moves nouts nins]. destruct k; try by intros ?%elem_of_nil.
  - case_match; [|by intros ?%elem_of_nil]. intros HH%elem_of_tail. by apply elem_of_zip_2 in HH.
  - case_match; [|by intros ?%elem_of_nil]. intros ([i o'] & Ho & HH)%elem_of_list_omap. apply bind_Some in HH as (z & Hz & [= <- <-]). apply elem_of_lookup_imap in Ho as (j & y & [= -> ->] & Ho).
    split; [by eapply elem_of_list_lookup_2|]. destruct subs as [|r rs]; [done|]. pose proof (invariant_spec _ _ _ _ Hz r ltac:(left)) as (a & i & _ & _ & Hi)%external_spec. by eapply elem_of_list_lookup_2.
  - case_match; [|by intros ?%elem_of_nil]. intros ([i o'] & Ho & HH)%elem_of_list_omap. case_match; [|done]. apply bind_Some in HH as (z & Hz & [= <- <-]). apply elem_of_lookup_imap in Ho as (j & y & [= -> ->] & Ho).
    split; by eapply elem_of_list_lookup_2.
Qed.
Lemma visit_ok cfg io av ns0 st id : okst av ns0 st -> okst av ns0 (visit cfg io st id) /\
  (forall y, used y (visit cfg io st id) -> used y st) /\
  (forall j n, list_find (fun n => nid n = id) st.1 = Some (j, n) -> forall o x, (o, x) ∈ moves cfg io n st.1 st.2 -> ~ used o (visit cfg io st id)).
Proof.
  intros Hok. unfold visit. destruct (list_find _ _) as [[j n]|] eqn:E; [|split; [done|]; split; [done|]; intros; done].
  apply list_find_Some in E as (Hj%elem_of_list_lookup_2 & _ & _). set (L := moves cfg io n st.1 st.2).
  assert (HL : forall o x, (o, x) ∈ L -> exists n, n ∈ st.1 /\ o ∈ nouts n /\ x ∈ nins n) by (intros o x Hox; exists n; split; [done | by eapply moves_spec]).
  assert (Hno : forall x, x ∈ L.*2 -> x ∉ nouts n).
  { intros x Hx Hx2. apply elem_of_list_fmap in Hx as ([o x'] & -> & Hx). apply moves_spec in Hx as [_ Hx]. destruct Hok. eapply self_input; eauto. }
  assert (Ho1 : forall o, o ∈ L.*1 -> o ∈ nouts n). { intros o Ho. apply elem_of_list_fmap in Ho as ([o' x] & -> & Ho). by apply moves_spec in Ho as [? _]. }
  destruct (divert_all_ok av ns0 L st Hok HL) as [H1 H2]. { intros x Hx Hx2. by apply (Hno x); [|apply Ho1]. }
  split; [done|]. split.
  - intros y Hy. destruct (H2 y Hy) as [[? _]|Hy2]; [done|]. apply elem_of_list_fmap in Hy2 as ([o x'] & -> & Hx). apply moves_spec in Hx as [_ Hx]. right. eauto.
  - intros j' n' [= <- <-] o x Hox Hu. assert (Hin : o ∈ L.*1) by (apply elem_of_list_fmap; by exists (o, x)). destruct (H2 o Hu) as [[_ ?]|Hx]; [done|]. by apply (Hno o); [|apply Ho1].
Qed.

(** ** invariant outputs *)
Definition stable (cfg : config) (io : oid -> bool) (n : node) (o : oid) : Prop :=
  (on_theta cfg = true /\ io o = false /\ invariant_loop_var n o) \/ (on_gamma cfg = true /\ invariant_exit_var n o).
Lemma position_nodup o (l : list oid) i : NoDup l -> l !! i = Some o -> position o l = Some i.
Proof.
  revert i. induction l as [|x l IH]; intros i; [done|]. intros [Hx Hn]%NoDup_cons. destruct i as [|i]; cbn.
  - intros [= ->]. by rewrite decide_True.
  - intros H. rewrite decide_False; [by rewrite (IH _ Hn H)|]. intros ->. apply Hx. by eapply elem_of_list_lookup_2.
Qed.
Lemma stable_moves cfg io n o ns res : wf_node n -> (forall s, s ∈ nsubs n -> NoDup (rargs s)) -> stable cfg io n o -> exists x, (o, x) ∈ moves cfg io n ns res.
Proof.
  destruct n as [id k ins outs subs]. intros [Hsh _]%wf_node_unfold Hna [(Hc & Hio & Hk & i & s & a & Ho & Hs & Ha & Hr)|(Hc & Hk & Hne & j & i & Ho & Hs)]; cbn [nkind nouts nsubs] in *; subst k; cbn [moves shape] in *.
  - rewrite Hc. subst subs. destruct Hsh as (r & [= <-] & Hl & _). destruct (lookup_lt_is_Some_2 ins i) as [x Hx]; [apply lookup_lt_Some in Ha; lia|]. exists x. apply elem_of_list_omap. exists (i, o). split.
    + apply elem_of_lookup_imap. eauto.
    + rewrite Hio. cbn [nth]. unfold loop_var_invariant. rewrite Ha, Hr, bool_decide_eq_true_2 by done. cbn. by rewrite Hx.
  - rewrite Hc. destruct Hsh as [_ Hf]. destruct subs as [|r0 rs]; [done|].
    assert (Hext : forall s, s ∈ r0 :: rs -> external_origin ins j s = ins !! S i).
    { intros s Hin. destruct (Hs s Hin) as (a & H1 & H2). unfold external_origin. rewrite H1. cbn. by rewrite (position_nodup a (rargs s) (S i) (Hna s Hin) H2). }
    destruct (lookup_lt_is_Some_2 ins (S i)) as [z Hz]. { destruct (Hs r0 ltac:(left)) as (a & _ & H2). apply lookup_lt_Some in H2. apply Forall_cons in Hf as [[Hl _] _]. lia. }
    exists z. apply elem_of_list_omap. exists (j, o). split; [apply elem_of_lookup_imap; eauto|]. cbn [invariant_origin]. rewrite (Hext r0) by left. rewrite Hz. cbn.
    assert (forallb (fun r' => bool_decide (external_origin ins j r' = Some z)) rs = true) as ->; [|done]. apply forallb_forall. intros s Hin%elem_of_list_In. apply bool_decide_eq_true. rewrite (Hext s) by (by right). done.
Qed.
Lemma stable_same cfg io n n' o : same n n' -> stable cfg io n' o -> stable cfg io n o.
Proof. intros (H1 & H2 & H3 & H4). unfold stable, invariant_loop_var, invariant_exit_var. by rewrite H2, H3, H4. Qed.
Lemma same_stable cfg io n n' o : same n n' -> stable cfg io n o -> stable cfg io n' o.
Proof. intros (H1 & H2 & H3 & H4). unfold stable, invariant_loop_var, invariant_exit_var. by rewrite H2, H3, H4. Qed.
Lemma visits_ok cfg io av ns0 ids : (forall n s, n ∈ ns0 -> s ∈ nsubs n -> NoDup (rargs s)) -> NoDup (map nid ns0) ->
  forall st, okst av ns0 st -> okst av ns0 (foldl (visit cfg io) st ids) /\ (forall y, used y (foldl (visit cfg io) st ids) -> used y st) /\
  forall n o, n ∈ ns0 -> nid n ∈ ids -> stable cfg io n o -> ~ used o (foldl (visit cfg io) st ids).
Proof.
  intros Hna Hid. induction ids as [|id ids IH]; intros st Hok; [split; [done|]; split; [done|]; intros ??? ?%elem_of_nil; done|]. cbn [foldl].
  destruct (visit_ok cfg io av ns0 st id Hok) as (H1 & H2 & H3). destruct (IH _ H1) as (I1 & I2 & I3). split; [done|]. split; [auto|].
  intros n o Hn Hi Hs Hu. apply elem_of_cons in Hi as [<-|Hi]; [|by apply (I3 n o)]. apply I2 in Hu. revert Hu.
  apply elem_of_list_lookup in Hn as [j Hj]. destruct (Forall2_lookup_l _ _ _ _ _ (ok_same _ _ _ Hok) Hj) as (n' & Hj' & Hsame).
  assert (Hfind : list_find (fun m => nid m = nid n) st.1 = Some (j, n')).
  { apply list_find_Some. split; [done|]. split; [apply Hsame|]. intros j2 m Hm Hlt He. destruct (Forall2_lookup_r _ _ _ _ _ (ok_same _ _ _ Hok) Hm) as (m0 & Hm0 & Hsm).
    assert (j2 = j); [|lia]. eapply NoDup_lookup; [exact Hid | |]; change (map nid ns0) with (nid <$> ns0); rewrite list_lookup_fmap; [rewrite Hm0 | rewrite Hj]; cbn; [|done]. f_equal. destruct Hsm as [Hsm _]. congruence. }
  destruct (stable_moves cfg io n' o st.1 st.2) as [x Hx].
  - pose proof (wf_list_Forall _ _ _ (ok_wf _ _ _ Hok)) as Hf. rewrite Forall_forall in Hf. apply Hf. by eapply elem_of_list_lookup_2.
  - destruct Hsame as (_ & _ & _ & ->). intros s. apply Hna. by eapply elem_of_list_lookup_2.
  - by eapply same_stable.
  - by eapply H3.
Qed.
