(** SSA destruction: all phi blocks. *)
From stdpp Require Import tactics relations base list list_numbers fin_sets gmap fin_maps.
From Verif.Construct Require Import Model Spec.
From Verif.Cfg Require Import Model Spec ProofsBase ProofsSsa1 ProofsSsa2.

Lemma phi_lengths (ops : list (nat * nat)) (ps : list nat) : NoDup (fst <$> ops) -> NoDup ps -> (forall p, p ∈ fst <$> ops <-> p ∈ ps) ->
  length ops = length ps /\ Forall (fun p => p.1 ∈ ps) ops.
Proof.
  intros H1 H2 H. split.
  - rewrite <- (fmap_length fst). apply Permutation_length. by apply NoDup_Permutation.
  - apply Forall_forall. intros q Hq. apply H. apply elem_of_list_fmap. by exists q.
Qed.
Section All.
  Context (undef : nat -> nat) (first : nat).
  Record inv (g : cfg) (s v : nat) (l : list nat) : Prop := Inv {
    inv_valid : valid g; inv_unused : unused g s v; inv_start : start g = first;
    inv_first : exists f, blocks g !! first = Some f /\ has_phi f = false;
    inv_pre : forall p, edge g p first -> p = entry;
    inv_nodup : NoDup l;
    inv_todo : forall n, n ∈ l -> exists b, blocks g !! n = Some b /\ has_phi b = true;
    inv_all : forall n b, blocks g !! n = Some b -> has_phi b = true -> n ∈ l
  }.
  Lemma has_phi_split b : has_phi b = false <-> (split_phis (code b)).1 = [].
  Proof using Type. unfold has_phi. destruct (code b) as [|[r ops|x] l]; [done| |done]. cbn. split; [done|]. by destruct (split_phis l). Qed.
  Lemma plain_no_phi c ss : split_phis c = ([], c) -> has_phi (Block c ss) = false.
  Proof using Type. intros H. apply has_phi_split. cbn [code]. by rewrite H. Qed.
  Lemma inv_step g s v n l : inv g s v (n :: l) -> exists g' s' v', destruct_at undef first (g, s, v) n = Some (g', s', v') /\ inv g' s' v' l /\ v <= v' /\
    (forall r, phi_result g' r -> phi_result g r) /\
    forall (V : Type) (ctl : V -> option nat) sem truth (σ : nat -> V), (forall r, phi_result g r -> sem (undef r) [] = Some [σ r]) ->
      (forall σ', executes ctl sem truth g σ σ' -> exists τ', agree v σ' τ' /\ executes ctl sem truth g' σ τ') /\
      (forall τ', executes ctl sem truth g' σ τ' -> exists σ', agree v σ' τ' /\ executes ctl sem truth g σ σ').
  Proof using Type.
    intros [Hv Hu Hst (f & Hf & Hfp) Hpre Hnd Htodo Hall]. destruct (Htodo n) as (b & Hb & Hbp); [by left|].
    assert (Hnf : first <> n) by congruence. apply NoDup_cons in Hnd as (Hnl & Hnd).
    destruct (phi_moves_total (preds g n) (code b) v) as ([[ms rest] v'] & Hms).
    { intros r ops Hin. destruct (valid_blocks _ Hv _ _ Hb) as (_ & _ & _ & Hp). destruct (Hp r ops Hin) as (H1 & H2). apply phi_lengths; [done|apply NoDup_remove_dups|].
      intros p. by rewrite H2, elem_preds. }
    assert (Hsome : is_Some (destruct_at undef first (g, s, v) n)).
    { unfold destruct_at. rewrite Hb. cbn [mbind option_bind]. rewrite Hms. cbn [mbind option_bind]. rewrite decide_False by done.
      rewrite lookup_alter_ne by done. rewrite (insert_all_ne (fun p => Block (moves_of p ms) [s])).
      - rewrite lookup_insert_ne.
        + rewrite map_lookup_imap, Hf. cbn. eauto.
        + pose proof (unused_nodes _ _ _ Hu first (ex_intro _ _ Hf)). lia.
      - intros p Hp. apply ims_spec in Hp. pose proof (unused_nodes _ _ _ Hu first (ex_intro _ _ Hf)). lia. }
    destruct Hsome as ([[g' s'] v''] & Hstep).
    pose proof (step_valid _ _ _ _ _ _ _ _ _ _ _ Hv Hu Hst Hf Hfp Hpre Hnf Hb Hms _ _ _ Hstep) as Hv'.
    pose proof (step_unused _ _ _ _ _ _ _ _ _ _ _ Hv Hu Hst Hf Hfp Hpre Hnf Hb Hms _ _ _ Hstep) as Hu'.
    pose proof (step_inv _ _ _ _ _ _ _ _ _ _ _ Hv Hu Hst Hf Hfp Hpre Hnf Hb Hms _ _ _ Hstep) as Hinv.
    pose proof (step_result _ _ _ _ _ _ _ _ _ _ _ Hv Hu Hst Hf Hfp Hpre Hnf Hb Hms _ _ _ Hstep) as (Hs' & Hv'' & Hst' & R1 & R2 & R3 & R4 & R5 & _).
    pose proof (step_pred _ _ _ _ _ _ _ _ _ _ _ Hv Hu Hst Hf Hfp Hpre Hnf Hb Hms _ _ _ Hstep) as Hpred.
    pose proof (rest_plain g v n b ms rest v' Hv Hb Hms) as (_ & Hrest & _).
    pose proof (first_code undef g first f ms Hv Hf Hfp) as (Hfc & _).
    destruct (phi_moves_spec _ _ _ _ _ _ Hms) as (Hsp & Hvl & _).
    assert (Hnew : forall k d, blocks g' !! k = Some d -> has_phi d = true -> k <> n /\ exists c, blocks g !! k = Some c /\ code d = code c).
    { intros k d Hd Hp. apply Hinv in Hd as [(c & Hc & _ & Hkn & _ & ->)|[(-> & ->)|[(-> & ->)|[(-> & ->)|(q & Hq & ->)]]]].
      - split; [done|]. by exists c.
      - exfalso. rewrite (plain_no_phi _ _ Hrest) in Hp. done.
      - exfalso. rewrite (plain_no_phi _ _ Hfc) in Hp. done.
      - exfalso. unfold has_phi in Hp. cbn in Hp. by destruct ms.
      - exfalso. pose proof (moves_tac ms q) as Ht. unfold has_phi in Hp. cbn [code] in Hp. destruct Ht as [|i l' (x & ->) _]; done. }
    exists g', s', v''. split; [done|]. split.
    { split; [done|done|done| | |done| |].
      - eexists. split; [exact R3|]. exact (plain_no_phi _ _ Hfc).
      - intros p Hp. apply Hpre. apply Hpred in Hp; [done|exact (unused_nodes _ _ _ Hu first (ex_intro _ _ Hf))|done].
      - intros k Hk. destruct (Htodo k) as (c & Hc & Hcp); [by right|]. eexists. split; [apply R1; [exact Hc| |]|exact Hcp].
        + intros ->. done.
        + congruence.
      - intros k d Hd Hp. destruct (Hnew _ _ Hd Hp) as (Hkn & c & Hc & Hcd). assert (Hk : k ∈ n :: l).
        { apply (Hall k c Hc). unfold has_phi in *. by rewrite <- Hcd. } apply elem_of_cons in Hk as [->|Hk]; done. }
    split; [lia|]. split.
    { intros r (k & d & ops & Hd & Hin). assert (Hp : has_phi d = true).
      { destruct (has_phi d) eqn:E; [done|]. apply has_phi_split in E. rewrite E in Hin. by apply elem_of_nil in Hin. }
      destruct (Hnew _ _ Hd Hp) as (Hkn & c & Hc & Hcd). exists k, c, ops. rewrite <- Hcd. done. }
    intros V ctl sem truth σ Hund.
    apply (step_executes undef _ _ _ _ _ _ _ _ _ _ Hv Hu Hst Hf Hfp Hpre Hnf Hb Hms _ _ _ Hstep).
    intros r Hr. apply Hund. apply elem_of_list_fmap in Hr as (m & -> & Hm). exists n, b, m.2. split; [done|]. rewrite Hsp. cbn. apply elem_of_list_fmap. by exists m.
  Qed.
  Lemma destruct_all_ok l g s v : inv g s v l -> exists g' s' v', destruct_all undef first l (g, s, v) = Some (g', s', v') /\ inv g' s' v' [] /\
    forall (V : Type) (ctl : V -> option nat) sem truth (σ : nat -> V), (forall r, phi_result g r -> sem (undef r) [] = Some [σ r]) ->
      (forall σ', executes ctl sem truth g σ σ' -> exists τ', agree v σ' τ' /\ executes ctl sem truth g' σ τ') /\
      (forall τ', executes ctl sem truth g' σ τ' -> exists σ', agree v σ' τ' /\ executes ctl sem truth g σ σ').
  Proof using Type.
    revert g s v. induction l as [|n l IH]; intros g s v Hi.
    - exists g, s, v. split; [done|]. split; [done|]. intros V ctl sem truth σ _. split; intros σ' H; exists σ'; (split; [by intros x|done]).
    - destruct (inv_step _ _ _ _ _ Hi) as (g1 & s1 & v1 & H1 & Hi1 & Hle & Hphi & He1). destruct (IH _ _ _ Hi1) as (g' & s' & v' & H2 & Hi2 & He2).
      exists g', s', v'. split; [cbn [destruct_all]; rewrite H1; exact H2|]. split; [done|]. intros V ctl sem truth σ Hund.
      destruct (He1 V ctl sem truth σ Hund) as (A1 & A2). destruct (He2 V ctl sem truth σ) as (B1 & B2); [intros r Hr; apply Hund; auto|]. split.
      + intros σ' H. destruct (A1 _ H) as (τ & Ha & Ht). destruct (B1 _ Ht) as (τ' & Hb & Ht'). exists τ'. split; [|done]. intros x Hx. rewrite Ha by done. apply Hb. lia.
      + intros τ' H. destruct (B2 _ H) as (τ & Hb & Ht). destruct (A2 _ Ht) as (σ' & Ha & Hs). exists σ'. split; [|done]. intros x Hx. rewrite Ha by done. apply Hb. lia.
  Qed.
End All.
Lemma destruct_ssa_ok undef order g s v : valid g -> unused g s v -> (forall x, order x ≡ₚ elements x) ->
  (exists f, blocks g !! start g = Some f /\ has_phi f = false) -> (forall p, edge g p (start g) -> p = entry) ->
  exists g' s' v', destruct_ssa undef order g s v = Some (g', s', v') /\ valid g' /\ no_phis g' /\
    forall (V : Type) (ctl : V -> option nat) sem truth (σ : nat -> V), (forall r, phi_result g r -> sem (undef r) [] = Some [σ r]) ->
      (forall σ', executes ctl sem truth g σ σ' -> exists τ', agree v σ' τ' /\ executes ctl sem truth g' σ τ') /\
      (forall τ', executes ctl sem truth g' σ τ' -> exists σ', agree v σ' τ' /\ executes ctl sem truth g σ σ').
Proof.
  intros Hv Hu Ho Hf Hpre.
  assert (Hmem : forall n, n ∈ phi_blocks g <-> exists b, blocks g !! n = Some b /\ has_phi b = true).
  { intros n. unfold phi_blocks. rewrite elem_of_dom. split.
    - intros (b & Hb). apply map_filter_lookup_Some in Hb as (Hb & Hp). by exists b.
    - intros (b & Hb & Hp). exists b. by apply map_filter_lookup_Some. }
  destruct (destruct_all_ok undef (start g) (order (phi_blocks g)) g s v) as (g' & s' & v' & H1 & H2 & H3).
  - split; [done|done|done|done|done| | |].
    + rewrite Ho. apply NoDup_elements.
    + intros n Hn. rewrite Ho in Hn. apply elem_of_elements in Hn. by apply Hmem.
    + intros n b Hb Hp. rewrite Ho. apply elem_of_elements. apply Hmem. eauto.
  - exists g', s', v'. split; [done|]. split; [apply H2|]. split; [|done]. intros n b Hb.
    assert (Hp : has_phi b = false).
    { destruct (has_phi b) eqn:E; [|done]. pose proof (inv_all _ _ _ _ _ H2 _ _ Hb E) as H. by apply elem_of_nil in H. }
    destruct (valid_blocks _ (inv_valid _ _ _ _ _ H2) _ _ Hb) as (_ & _ & (ts & Hts) & _). rewrite (split_phis_none _ (no_phi_head _ Hp)) in Hts. cbn in Hts.
    apply plain_spec in Hts. rewrite Hts. apply Forall_forall. intros i Hi. apply elem_of_list_fmap in Hi as (x & -> & _). eauto.
Qed.
