(** Tracing a pointer to all its origins: it ends, and what it gives covers every way the pointer can come about. *)
From stdpp Require Import base list fin_maps fin_sets gmap.
From Coq Require Import ZArith Lia.
From Verif.AliasQuery Require Import Model Spec.
Local Open Scope Z_scope.

Definition le_off (x y : option Z) : Prop := y = None \/ y = x.
Lemma le_off_refl x : le_off x x.
Proof. by right. Qed.
Lemma le_off_trans x y z : le_off x y -> le_off y z -> le_off x z.
Proof. intros [->| ->] [->| ->]; by (left + right). Qed.
Definition add_off (x c : option Z) : option Z := match x, c with Some z, Some d => Some (z + d) | _, _ => None end.
Lemma le_off_add x y c : le_off x y -> le_off (add_off x c) (add_off y c).
Proof. intros [->| ->]; [by left | by right]. Qed.

Section Trace.
  Context (G : graph) (Hwf : wf G).
  Notation M := (gmap nat (option Z)).
  Definition succs (b : nat) (off : option Z) : list (nat * option Z) :=
    match kind_of G b with
    | Gep base c => [(base, add_off off c)]
    | Select x y => [(x, off); (y, off)]
    | GammaOut rs => map (fun r => (r, off)) rs
    | ThetaOut _ post => [(post, off)]
    | ThetaPre input post => [(post, off); (input, off)]
    | _ => []
    end.
  Definition covered (m : M) (x : nat) (off : option Z) : Prop := exists y, m !! norm G x = Some y /\ le_off off y.
  Definition closed (m : M) (b : nat) : Prop := forall y x off, m !! b = Some y -> (x, off) ∈ succs b y -> covered m x off.
  Definition grows (m m' : M) : Prop := forall b y, m !! b = Some y -> exists y', m' !! b = Some y' /\ le_off y y'.
  Definition tops_agree (tc : M * M) : Prop := forall b, origin G b -> tc.2 !! b = tc.1 !! b.
  Lemma grows_refl m : grows m m.
  Proof. intros b y H. exists y. split; [done | apply le_off_refl]. Qed.
  Lemma grows_trans m1 m2 m3 : grows m1 m2 -> grows m2 m3 -> grows m1 m3.
  Proof. intros H1 H2 b y H. apply H1 in H as (y' & H & L). apply H2 in H as (z & H & L'). exists z. split; [done | by eapply le_off_trans]. Qed.
  Lemma covered_grows m m' x off : grows m m' -> covered m x off -> covered m' x off.
  Proof. intros Hg (y & H & L). apply Hg in H as (y' & H & L'). exists y'. split; [done | by eapply le_off_trans]. Qed.
  Lemma closed_grows m m' b : grows m m' -> m' !! b = m !! b -> closed m b -> closed m' b.
  Proof. intros Hg He Hc y x off Hy Hs. rewrite He in Hy. eapply covered_grows; [exact Hg | by eapply Hc]. Qed.
  (** progress *)
  Definition unknowns (m : M) : gset nat := dom (filter (fun d : nat * option Z => d.2 = None) m).
  Definition phi (m : M) : nat := (size m + size (unknowns m))%nat.
  Lemma elem_unknowns m b : b ∈ unknowns m <-> m !! b = Some None.
  Proof.
    unfold unknowns. rewrite elem_of_dom. split.
    - intros [y H]. apply map_filter_lookup_Some in H as [H E]. cbn in E. by subst.
    - intros H. exists None. apply map_filter_lookup_Some. by split.
  Qed.
  Lemma grows_size m m' : grows m m' -> (size m <= size m')%nat.
  Proof.
    intros Hg. rewrite <-!(size_dom (D:=gset nat)). apply subseteq_size. intros b. rewrite !elem_of_dom. intros [y H]. apply Hg in H as (y' & H & _). by exists y'.
  Qed.
  Lemma grows_phi m m' : grows m m' -> (phi m <= phi m')%nat.
  Proof.
    intros Hg. unfold phi. pose proof (grows_size _ _ Hg). enough (size (unknowns m) <= size (unknowns m'))%nat by lia.
    apply subseteq_size. intros b. rewrite !elem_unknowns. intros H1. apply Hg in H1 as (y' & H1 & [->| ->]); done.
  Qed.
  Lemma phi_bound m : (phi m <= 2 * size m)%nat.
  Proof.
    unfold phi. enough (size (unknowns m) <= size m)%nat by lia. rewrite <-(size_dom (D:=gset nat) m). apply subseteq_size. intros b. rewrite elem_unknowns, elem_of_dom. intros H. by exists None.
  Qed.
  Lemma phi_step m b off : m !! b = None \/ (off = None /\ exists z, m !! b = Some (Some z)) -> grows m (<[b := off]> m) /\ (phi m < phi (<[b := off]> m))%nat /\ (size (<[b := off]> m) <= S (size m))%nat.
  Proof.
    intros Hb.
    assert (Hg : grows m (<[b := off]> m)).
    { intros b' y H. destruct (decide (b' = b)) as [->|Hn].
      - destruct Hb as [Hb|[-> _]]; [congruence|]. exists None. rewrite lookup_insert. split; [done | by left].
      - exists y. rewrite lookup_insert_ne by done. split; [done | apply le_off_refl]. }
    split; [done|]. pose proof (grows_size _ _ Hg) as Hs. unfold phi.
    assert (Hu : (size (unknowns m) <= size (unknowns (<[b := off]> m)))%nat).
    { apply subseteq_size. intros b'. rewrite !elem_unknowns. intros H1. apply Hg in H1 as (y' & H1 & [->| ->]); done. }
    destruct Hb as [Hb|[-> [z Hz]]].
    - rewrite map_size_insert_None by done. lia.
    - rewrite map_size_insert_Some by eauto. split; [|lia]. enough (size (unknowns m) < size (unknowns (<[b := None]> m)))%nat by lia.
      apply subset_size. apply strict_spec_alt. split.
      + intros b'. rewrite !elem_unknowns. intros H1. apply Hg in H1 as (y' & H1 & [->| ->]); done.
      + intros E. assert (H : b ∈ unknowns m) by (rewrite E; apply elem_unknowns; by rewrite lookup_insert). apply elem_unknowns in H. congruence.
  Qed.

  (** the state of a call: [S] are the base pointers that are being traced further up; they need not be closed *)
  Definition pre (max : nat) (S : nat -> Prop) (tc : M * M) : Prop := (size tc.1 <= max)%nat /\ tops_agree tc /\ forall b, ~ S b -> closed tc.1 b.
  Definition post (max : nat) (S : nat -> Prop) (tc tc' : M * M) : Prop :=
    pre max S tc' /\ grows tc.1 tc'.1 /\ forall b, S b -> tc'.1 !! b <> tc.1 !! b -> closed tc'.1 b.
  Lemma post_refl max S tc : pre max S tc -> post max S tc tc.
  Proof. intros H. split; [done|]. split; [apply grows_refl|]. intros b _ Hn. by destruct Hn. Qed.
  Lemma post_trans max S tc tc1 tc2 : post max S tc tc1 -> post max S tc1 tc2 -> post max S tc tc2.
  Proof.
    intros (_ & G1 & C1) (P2 & G2 & C2). split; [done|]. split; [by eapply grows_trans|]. intros b Hb Hn.
    destruct (decide (tc2.1 !! b = tc1.1 !! b)) as [E|E]; [|by apply C2]. eapply closed_grows; [exact G2 | exact E|]. apply C1; [done|]. congruence.
  Qed.
  Definition good (max : nat) (S : nat -> Prop) (tc : M * M) (l : list (nat * option Z)) (r : outcome (bool * (M * M))) : Prop :=
    match r with
    | Done (true, tc') => post max S tc tc' /\ forall x off, (x, off) ∈ l -> covered tc'.1 x off
    | Done (false, _) => True
    | Failed | Fuel => False
    end.
  Definition good_rec (max f : nat) (rec : nat -> option Z -> M * M -> outcome (bool * (M * M))) : Prop :=
    forall S x off tc, pre max S tc -> (2 * max + 2 <= f + phi tc.1)%nat -> good max S tc [(x, off)] (rec x off tc).
  Lemma each_good max f rec S l off tc : good_rec max f rec -> pre max S tc -> (2 * max + 2 <= f + phi tc.1)%nat -> good max S tc (map (fun r => (r, off)) l) (trace_each rec l off tc).
  Proof.
    intros Hrec. revert tc. induction l as [|x l IH]; intros tc Hp Hf.
    - cbn. split; [by apply post_refl|]. intros y o H. by apply elem_of_nil in H.
    - cbn [trace_each map]. pose proof (Hrec S x off tc Hp Hf) as H1. destruct (rec x off tc) as [[[|] tc1]| |]; cbn [obind]; cbn in H1; [|done|done|done].
      destruct H1 as [Hpost Hc]. assert (Hg : grows tc.1 tc1.1) by (by destruct Hpost as (_ & ? & _)).
      specialize (IH tc1). destruct Hpost as (Hp1 & Hg1 & Hch). specialize (IH Hp1). assert (Hf1 : (2 * max + 2 <= f + phi tc1.1)%nat) by (pose proof (grows_phi _ _ Hg); lia). specialize (IH Hf1).
      destruct (trace_each rec l off tc1) as [[[|] tc2]| |]; cbn in IH |- *; [|done|done|done]. destruct IH as [Hpost2 Hc2].
      split; [eapply post_trans; [|exact Hpost2]; by split|]. intros y o H. apply elem_of_cons in H as [[= -> ->]|H]; [|by apply Hc2].
      eapply covered_grows; [by destruct Hpost2 as (_ & ? & _)|]. apply Hc. by apply elem_of_list_singleton.
  Qed.
  Lemma from_good max f rec S b off tc : good_rec max f rec -> stops G b -> pre max S tc -> (size tc.1 < max)%nat -> (2 * max + 2 <= 1 + f + phi tc.1)%nat ->
    tc.1 !! b = None \/ (off = None /\ exists z, tc.1 !! b = Some (Some z)) ->
    match trace_from G rec b off tc with
    | Done (true, tc') => post max S tc tc' /\ exists y, tc'.1 !! b = Some y /\ le_off off y
    | Done (false, _) => True
    | _ => False
    end.
  Proof.
    intros Hrec Hst Hp Hlt Hf Hb. destruct (phi_step tc.1 b off Hb) as (Hg & Hphi & Hsz). set (tc1 := (<[b := off]> tc.1, tc.2)).
    destruct Hp as (Hp1 & Hp2 & Hp3).
    assert (Hcl : forall b', ~ (b' = b \/ S b') -> closed tc1.1 b').
    { intros b' Hn. eapply closed_grows; [exact Hg | | apply Hp3; tauto]. cbn. apply lookup_insert_ne. intros ->. tauto. }
    (* an output that is not a top origin *)
    assert (Hgen : ~ origin G b -> forall r, good max (fun b' => b' = b \/ S b') tc1 (succs b off) r ->
      match r with Done (true, tc') => post max S tc tc' /\ exists y, tc'.1 !! b = Some y /\ le_off off y | Done (false, _) => True | _ => False end).
    { intros Ho [[[|] tc']| |] Hr; cbn in Hr; [|done|done|done]. destruct Hr as (((Hs' & Ht' & Hc') & Hg' & Hch) & Hcov).
      assert (Hbc : closed tc'.1 b).
      { destruct (decide (tc'.1 !! b = tc1.1 !! b)) as [E|E]; [|apply Hch; [by left | done]]. intros y x o Hy Hs. rewrite E in Hy. cbn in Hy. rewrite lookup_insert in Hy. injection Hy as <-. by apply Hcov. }
      split.
      - split; [split; [done | split; [done|]] | split; [by eapply grows_trans|]].
        + intros b' Hn. destruct (decide (b' = b)) as [->|Hne]; [done|]. apply Hc'. tauto.
        + intros b' HS Hn. destruct (decide (b' = b)) as [->|Hne]; [done|]. apply Hch; [by right|]. cbn. by rewrite lookup_insert_ne.
      - apply Hg'. cbn. apply lookup_insert. }
    assert (Hp' : ~ origin G b -> pre max (fun b' => b' = b \/ S b') tc1).
    { intros Ho. split; [cbn; lia|]. split; [|done]. intros b' Ho'. cbn. rewrite lookup_insert_ne; [by apply Hp2 | by intros ->]. }
    assert (Hf1 : (2 * max + 2 <= f + phi tc1.1)%nat) by (cbn; lia).
    assert (Htop : origin G b -> post max S tc (tc1.1, <[b := off]> tc1.2) /\ exists y, tc1.1 !! b = Some y /\ le_off off y).
    { intros Ho. assert (Hs0 : forall y, succs b y = []) by (intros y; unfold origin in Ho; unfold succs; by destruct (kind_of G b)).
      split; [|exists off; split; [apply lookup_insert | apply le_off_refl]]. split; [split; [cbn; lia | split] | split; [done|]].
      - intros b' Ho'. cbn. destruct (decide (b' = b)) as [->|Hne]; [by rewrite !lookup_insert|]. rewrite !lookup_insert_ne by done. by apply Hp2.
      - intros b' Hn. destruct (decide (b' = b)) as [->|Hne]; [|apply Hcl; tauto]. intros y x o _ Hs. rewrite Hs0 in Hs. by apply elem_of_nil in Hs.
      - intros b' _ Hn. cbn in Hn. destruct (decide (b' = b)) as [->|Hne]; [|by rewrite lookup_insert_ne in Hn]. intros y x o _ Hs. rewrite Hs0 in Hs. by apply elem_of_nil in Hs. }
    unfold trace_from. fold tc1. unfold stops in Hst. unfold origin in Htop, Hgen, Hp'. unfold succs in Hgen. destruct (kind_of G b) eqn:Ek; try done.
    all: try (by apply Htop).
    all: assert (Hno : ~ False) by tauto.
    - apply (Hgen Hno). by apply Hrec; [apply Hp'|].
    - apply (Hgen Hno). exact (each_good max f rec _ [a; b0] off tc1 Hrec (Hp' Hno) Hf1).
    - apply (Hgen Hno (Done (true, tc1))). cbn. split; [by apply post_refl, Hp'|]. intros x o H. by apply elem_of_nil in H.
    - apply (Hgen Hno). exact (each_good max f rec _ results off tc1 Hrec (Hp' Hno) Hf1).
    - rewrite decide_False by done. apply (Hgen Hno). by apply Hrec; [apply Hp'|].
    - rewrite decide_False by done. apply (Hgen Hno). exact (each_good max f rec _ [post0; input] off tc1 Hrec (Hp' Hno) Hf1).
  Qed.
  Lemma all_good max f : good_rec max f (trace_all_fuel G f max).
  Proof.
    induction f as [|f IH]; intros S x off tc Hp Hf.
    - exfalso. pose proof (phi_bound tc.1). destruct Hp as [Hs _]. lia.
    - cbn [trace_all_fuel]. destruct (decide (max <= size tc.1)%nat) as [Hle|Hle]; [done|].
      assert (Hrun : forall o, tc.1 !! norm G x = None \/ (o = None /\ exists z, tc.1 !! norm G x = Some (Some z)) -> le_off off o ->
        good max S tc [(x, off)] (trace_from G (trace_all_fuel G f max) (norm G x) o tc)).
      { intros o Ho Hl. pose proof (from_good max f _ S (norm G x) o tc IH (wf_norm G Hwf x) Hp ltac:(lia) ltac:(lia) Ho) as H.
        destruct (trace_from G (trace_all_fuel G f max) (norm G x) o tc) as [[[|] tc']| |]; cbn; [|done|done|done]. destruct H as (H & y & Hy & Hl').
        split; [done|]. intros x' o' Hin. apply elem_of_list_singleton in Hin as [= -> ->]. exists y. split; [done | by eapply le_off_trans]. }
      destruct (tc.1 !! norm G x) as [[prev|]|] eqn:E.
      + destruct (decide (off = Some prev)) as [->|Hn].
        * cbn. split; [by apply post_refl|]. intros x' o' Hin. apply elem_of_list_singleton in Hin as [= -> ->]. exists (Some prev). split; [done | apply le_off_refl].
        * apply Hrun; [right; split; [done | by exists prev] | by left].
      + cbn. split; [by apply post_refl|]. intros x' o' Hin. apply elem_of_list_singleton in Hin as [= -> ->]. exists None. split; [done | by left].
      + apply Hrun; [by left | apply le_off_refl].
  Qed.
  Lemma trace_all_good max b off : match trace_all G max b off with
    | Done (true, tc) => tops_agree tc /\ (forall b', closed tc.1 b') /\ covered tc.1 b (Some off)
    | Done (false, _) => True
    | _ => False
    end.
  Proof.
    unfold trace_all. assert (Hp : pre max (fun _ => False) (∅, ∅)).
    { split; [cbn; rewrite map_size_empty; lia|]. split; [intros b' _; reflexivity|]. intros b' _ y x o H. cbn in H. by rewrite lookup_empty in H. }
    pose proof (all_good max (2 * max + 2) (fun _ => False) b (Some off) (∅, ∅) Hp ltac:(lia)) as H.
    destruct (trace_all_fuel G (2 * max + 2) max b (Some off) (∅, ∅)) as [[[|] tc]| |]; cbn in H; [|done|done|done]. destruct H as (((_ & Ht & Hc) & _ & _) & Hcov).
    split; [done|]. split; [intros b'; apply Hc; tauto|]. apply Hcov. by apply elem_of_list_singleton.
  Qed.

  (** tracing through GEPs with constant offsets ends *)
  Lemma precise_fuel_done f b off : (rank G (norm G b) < f)%nat -> exists b' off', trace_precise_fuel G f b off = Done (b', off').
  Proof.
    revert b off. induction f as [|f IH]; intros b off Hf; [lia|]. cbn [trace_precise_fuel]. destruct (kind_of G (norm G b)) as [| | | | |b1 [d|]| | | | | | | | | |] eqn:E; try (eexists _, _; reflexivity).
    apply IH. pose proof (wf_gep G Hwf _ _ _ E). pose proof (wf_rank G Hwf b1). lia.
  Qed.
  Lemma trace_precise_done p : exists b off, trace_precise G p = Done (b, off).
  Proof. apply precise_fuel_done. lia. Qed.
End Trace.
