(** Marking a simple node. *)
From stdpp Require Import base list list_numbers fin_sets gmap.
From Verif.Rvsdg Require Import Model Spec Sem Wf WfFacts Args Divert Local.
From Verif.Ivr Require Import Model.
From Verif.Cne Require Import Model Spec ProofsSem ProofsState Just Pre.

Lemma mjoin_unique {A B} (f : A -> list B) l x y b : NoDup (mjoin (map f l)) -> x ∈ l -> y ∈ l -> b ∈ f x -> b ∈ f y -> x = y.
Proof.
  induction l as [|z l IH]; [by intros _ ?%elem_of_nil|]. change (mjoin (map f (z :: l))) with (f z ++ mjoin (map f l)). intros (_ & Hd & Hn)%NoDup_app.
  assert (Hno : forall w, w ∈ l -> b ∈ f w -> b ∈ f z -> False). { intros w Hw Hbw Hbz. apply (Hd b Hbz). apply elem_of_mjoin_map. eauto. }
  intros [->|Hx]%elem_of_cons [->|Hy]%elem_of_cons Hbx Hby; [done | exfalso; eauto | exfalso; eauto | by apply IH].
Qed.
Lemma nid_unique ns n m : NoDup (map nid ns) -> n ∈ ns -> m ∈ ns -> nid n = nid m -> n = m.
Proof.
  intros Hn [i Hi]%elem_of_list_lookup [j Hj]%elem_of_list_lookup He. change (map nid ns) with (nid <$> ns) in Hn.
  assert (H1 : (nid <$> ns) !! i = Some (nid n)) by (by rewrite list_lookup_fmap, Hi). assert (H2 : (nid <$> ns) !! j = Some (nid n)) by (by rewrite list_lookup_fmap, Hj, He).
  pose proof (NoDup_lookup _ _ _ _ Hn H1 H2) as ->. rewrite Hi in Hj. by injection Hj.
Qed.
Section Simple.
  Context (choose : cstate -> list nat -> option nat) (Hch : forall σ l x, choose σ l = Some x -> x ∈ l).
  Context (ns : list node) (Hown : NoDup (own ns)) (Hids : NoDup (map nid ns)).
  Lemma out_unique n m o : n ∈ ns -> m ∈ ns -> o ∈ nouts n -> o ∈ nouts m -> n = m.
  Proof using Hown. clear -Hown. by apply mjoin_unique. Qed.
  Lemma out_nodup n : n ∈ ns -> NoDup (nouts n).
  Proof using Hown. clear -Hown. by apply (NoDup_mjoin_elem nouts). Qed.
  (** the node was given leader m: what is known once it has been visited; [pre] are the nodes before it *)
  Definition visited (σ : cstate) (pre : list node) (n : node) : Prop := (forall o, o ∈ nouts n -> lead σ o = o) \/
    exists m, m ∈ ns /\ is_simple m = true /\ same_op (nkind n) (nkind m) = true /\ (forall k o, nouts n !! k = Some o -> nouts m !! k = Some (lead σ o)) /\
      (m ∈ pre -> lead σ <$> nins n = lead σ <$> nins m).
  Lemma visited_cons σ pre n : visited σ pre n -> cons (lead σ) ns n.
  Proof using. clear. intros [H|(m & H1 & H2 & H3 & H4 & _)]; [by left | right; by exists m]. Qed.
  Lemma cons_self σ n o : n ∈ ns -> cons (lead σ) ns n -> o ∈ nouts n -> lead σ o ∈ nouts n -> forall o, o ∈ nouts n -> lead σ o = o.
  Proof using Hown.
    clear -Hown. intros Hn [H|(m & Hm & H1 & H2 & H3)] Ho Hl; [done|]. apply elem_of_list_lookup in Ho as [k Hk]. assert (m = n) as ->. { apply (out_unique m n (lead σ o)); [done | done | |done]. by eapply elem_of_list_lookup_2, H3. }
    intros o' [k' Hk']%elem_of_list_lookup. pose proof (H3 _ _ Hk') as E. rewrite Hk' in E. by injection E.
  Qed.
  Lemma leader_node_spec σ n m : SW σ -> leader_node σ ns n = Some (Some m) -> (nouts n = [] /\ m = n) \/ exists o, nouts n !! 0 = Some o /\ marked σ o /\ m ∈ ns /\ is_simple m = true /\ lead σ o ∈ nouts m.
  Proof using.
    clear. intros Hw. unfold leader_node. destruct (nouts n) as [|o l]; [intros [= <-]; by left|]. destruct (cmap σ !! o) as [i|] eqn:E; [|done]. destruct (leads σ !! i) as [l'|] eqn:El; cbn [mbind option_bind]; [|done].
    destruct (list_find _ ns) as [[j m']|] eqn:Ef; cbn [mbind option_bind]; [|done]. intros [= ->]. right. exists o. split; [done|]. split; [eexists; done|]. apply list_find_Some in Ef as (H1 & [H2 H3] & _). split; [by eapply elem_of_list_lookup_2|]. split; [done|].
    by rewrite (lead_Some _ _ _ _ E El).
  Qed.
  (** a node that leads its set leads with all its outputs *)
  Lemma leads_self σ n m : SW σ -> n ∈ ns -> cons (lead σ) ns n -> leader_node σ ns n = Some (Some m) -> nid m = nid n -> forall o, o ∈ nouts n -> lead σ o = o.
  Proof using Hown Hids.
    clear -Hown Hids. intros Hw Hn Hc Hl He. destruct (leader_node_spec _ _ _ Hw Hl) as [[Hno _]|(o & Ho & _ & Hm & _ & Hlo)]; [rewrite Hno; by intros o ?%elem_of_nil|].
    assert (m = n) as -> by (by eapply nid_unique). eapply cons_self; [done | done | by eapply elem_of_list_lookup_2 | done].
  Qed.
  Lemma stays_spec σ pre n m : SW σ -> n ∈ ns -> cons (lead σ) ns n -> leader_node σ ns n = Some m -> stays σ n m = true -> visited σ pre n.
  Proof using Hown Hids.
    clear -Hown Hids. intros Hw Hn Hc Hl. destruct m as [m|]; [|done]. cbn [stays]. intros [H%bool_decide_eq_true|H]%orb_true_iff; [left; by eapply leads_self|].
    destruct (leader_node_spec _ _ _ Hw Hl) as [[Hno _]|(o & Ho & _ & Hm & Hsm & Hlo)]; [left; rewrite Hno; by intros o ?%elem_of_nil|].
    unfold congruent in H. apply andb_true_iff in H as [H1 H2]. apply all_same_set_lead in H2; [|done]. destruct Hc as [Hc|(m' & Hm' & H3 & H4 & H5)]; [by left|]. right. exists m'. split; [done|]. split; [done|]. split; [done|]. split; [done|]. intros _.
    assert (m' = m) as ->; [|done]. apply (out_unique m' m (lead σ o)); [done | done | by eapply elem_of_list_lookup_2, H5 | done].
  Qed.
  Lemma follow_spec σ σ' pre n m : SW σ -> n ∈ ns -> m ∈ ns -> is_simple m = true -> m <> n -> congruent σ n m = true -> (forall o, o ∈ nouts m -> lead σ o = o) ->
    (forall x, x ∈ nins n -> x ∉ nouts n) -> (forall m x, m ∈ pre -> x ∈ nins m -> x ∉ nouts n) -> follow_node m n σ = Some σ' -> SW σ' /\ ext σ σ' (nouts n) /\ visited σ' pre n.
  Proof using Hown.
    clear -Hown. intros Hw Hn Hm Hsm Hne Hc Hlm Hi1 Hi2 H. apply andb_true_iff in Hc as [Hc1 Hc2]. apply all_same_set_lead in Hc2; [|done].
    apply follow_node_spec in H as (H1 & H2 & H3 & H4); [|done | by apply out_nodup |]. 2:{ intros x Hx Hx'. apply Hne. by eapply out_unique. }
    split; [done|]. split; [done|]. right. exists m. split; [done|]. split; [done|]. split; [done|]. split.
    - intros k o Ho. destruct (lookup_lt_is_Some_2 (nouts m) k) as [x Hx]; [rewrite H1; by eapply lookup_lt_Some|]. destruct (H4 _ _ _ Hx Ho) as (_ & _ & ->). rewrite Hlm; [done | by eapply elem_of_list_lookup_2].
    - intros Hp. assert (Ha : forall l : list oid, (forall x, x ∈ l -> x ∉ nouts n) -> lead σ' <$> l = lead σ <$> l). { intros l Hl. apply list_fmap_ext. intros i x Hx. eapply ext_lead; [done | done|]. apply Hl. by eapply elem_of_list_lookup_2. }
      rewrite !Ha; [done | intros x Hx; by eapply Hi2 | done].
  Qed.
  Lemma lead_all_spec σ pre n : SW σ -> SW (make_leaders (nouts n) σ) /\ ext σ (make_leaders (nouts n) σ) (nouts n) /\ visited (make_leaders (nouts n) σ) pre n.
  Proof using. clear. intros Hw. destruct (make_leaders_spec (nouts n) σ Hw) as (H1 & H2 & H3). split; [done|]. split; [done|]. left. intros o Ho. by apply H3. Qed.
  Lemma mark_simple_spec σ σ' pre n : SW σ -> n ∈ ns -> (forall m, m ∈ ns -> is_simple m = true -> cons (lead σ) ns m) -> is_simple n = true ->
    (forall x, x ∈ nins n -> x ∉ nouts n) -> (forall m x, m ∈ pre -> x ∈ nins m -> x ∉ nouts n) -> mark_simple choose ns n σ = Some σ' -> SW σ' /\ ext σ σ' (nouts n) /\ visited σ' pre n.
  Proof using Hch Hown Hids.
    intros Hw Hn Hc Hs Hi1 Hi2 H. unfold mark_simple in H. destruct (leader_node σ ns n) as [m|] eqn:El; cbn [mbind option_bind] in H; [|done]. destruct (stays σ n m) eqn:Est.
    { injection H as <-. split; [done|]. split; [apply ext_refl|]. eapply stays_spec; eauto. }
    destruct (choose σ _) as [i|] eqn:Ec; [|injection H as <-; by apply lead_all_spec]. apply Hch in Ec. apply elem_of_list_filter in Ec. destruct Ec as [Ec _]. destruct (ns !! i) as [m'|] eqn:Em; cbn [mbind option_bind] in H; [|done].
    unfold candidate in Ec. apply andb_true_iff in Ec as [Ec E4]. apply andb_true_iff in Ec as [Ec E3]. apply andb_true_iff in Ec as [E1 E2]. apply negb_true_iff, bool_decide_eq_false in E2.
    assert (Hm' : m' ∈ ns) by (by eapply elem_of_list_lookup_2). eapply follow_spec; [done | done | exact Hm' | done | by intros -> | done | | done | done | done].
    destruct (leader_node σ ns m') as [[m2|]|] eqn:El2; [|done|done]. apply bool_decide_eq_true in E4. by eapply leads_self; eauto.
  Qed.
  Definition tops_ok (σ : cstate) (pre tops : list node) : Prop := forall m, m ∈ tops -> m ∈ pre /\ m ∈ ns /\ is_simple m = true /\ forall o, o ∈ nouts m -> lead σ o = o.
  Lemma mark_top_spec σ σ' pre tops tops' n : SW σ -> n ∈ ns -> n ∉ pre -> (forall m, m ∈ ns -> is_simple m = true -> cons (lead σ) ns m) -> is_simple n = true -> tops_ok σ pre tops ->
    (forall x, x ∈ nins n -> x ∉ nouts n) -> (forall m x, m ∈ pre -> x ∈ nins m -> x ∉ nouts n) -> mark_top ns n tops σ = Some (tops', σ') -> SW σ' /\ ext σ σ' (nouts n) /\ visited σ' pre n /\ tops_ok σ' (pre ++ [n]) tops'.
  Proof using Hown Hids.
    clear Hch. intros Hw Hn Hnp Hc Hs Ht Hi1 Hi2 H. unfold mark_top in H. destruct (leader_node σ ns n) as [m|] eqn:El; cbn [mbind option_bind] in H; [|done].
    assert (Htops : forall σ', ext σ σ' (nouts n) -> tops_ok σ' (pre ++ [n]) tops).
    { intros σ1 He m' Hm'. destruct (Ht m' Hm') as (H1 & H2 & H3 & H4). split; [apply elem_of_app; by left|]. split; [done|]. split; [done|]. intros o Ho. rewrite (ext_lead _ _ _ _ Hw He); [auto|]. intros Ho'. apply Hnp. by rewrite (out_unique n m' o). }
    assert (Hadd : forall σ', tops_ok σ' (pre ++ [n]) tops -> (forall o, o ∈ nouts n -> lead σ' o = o) -> tops_ok σ' (pre ++ [n]) (tops ++ [n])).
    { intros σ1 Ht1 Hl m'. rewrite elem_of_app, elem_of_list_singleton. intros [Hm'| ->]; [auto|]. split; [apply elem_of_app; right; left|]. done. }
    destruct (stays σ n m) eqn:Est.
    { injection H as <- <-. split; [done|]. split; [apply ext_refl|]. split; [eapply stays_spec; eauto|]. destruct m as [m|]; [|apply Htops, ext_refl]. case_decide as Hd; [|apply Htops, ext_refl]. apply Hadd; [apply Htops, ext_refl|]. eapply leads_self; eauto. }
    destruct (list_find _ tops) as [[i m']|] eqn:Ef.
    - destruct (follow_node m' n σ) as [σ1|] eqn:E; cbn [mbind option_bind] in H; [|done]. injection H as <- <-. apply list_find_Some in Ef as (F1 & F2 & _). apply elem_of_list_lookup_2 in F1. destruct (Ht m' F1) as (H1 & H2 & H3 & H4).
      destruct (follow_spec σ σ1 pre n m') as (G1 & G2 & G3); try done; [by intros ->|]. auto.
    - injection H as <- <-. destruct (lead_all_spec σ pre n Hw) as (G1 & G2 & G3). split; [done|]. split; [done|]. split; [done|]. apply Hadd; [by apply Htops|]. intros o Ho. by apply (make_leaders_spec (nouts n) σ Hw).
  Qed.
End Simple.
