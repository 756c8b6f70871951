(** The API keeps the invariant; unification; NormalizeConstraints; HasIdenticalSolAs;
    which loops change the set they iterate over. *)
From stdpp Require Import base list list_numbers fin_sets gmap relations.
From Coq Require Import Lia.
From Verif.Andersen Require Import Model Spec Proofs Proofs2 Proofs3 Proofs4.

(** ** the API keeps the invariant *)
Lemma wf_empty : wf empty_pos.
Proof. split; cbn; intros; try lia; try set_solver. Qed.

Lemma add_object_root k can s i : wf s -> i < npo s -> root (add_object k can s) i = root s i.
Proof.
  intros W Hi. set (n := npo s). set (s' := add_object k can s).
  assert (F' : forest (npo s') (par s') (rank s')).
  { intros j Hj. cbn in Hj |- *. unfold upd. destruct (decide (j = npo s)) as [->|]; [split; [lia|auto]|].
    destruct (wf_par s W j) as [A B]; [lia|]. split; [lia|]. destruct (decide (par s j = npo s)); [lia|auto]. }
  assert (G : forall m, Nat.iter m (par s') i = Nat.iter m (par s) i).
  { induction m as [|m IH]; [reflexivity|].
    change (Nat.iter (S m) (par s') i) with (par s' (Nat.iter m (par s') i)).
    change (Nat.iter (S m) (par s) i) with (par s (Nat.iter m (par s) i)). rewrite IH.
    assert (L : Nat.iter m (par s) i < npo s) by (eapply forest_iter_lt; [apply wf_forest; auto|auto]).
    change (par s') with (upd (par s) (npo s) (npo s)). apply upd_ne. lia. }
  rewrite (root_rootf s'). rewrite (rootf_unique _ _ _ F' (uf_fuel s) i).
  - rewrite G. reflexivity.
  - cbn. lia.
  - rewrite G. change (Nat.iter (uf_fuel s) (par s) i) with (root s i). change (par s') with (upd (par s) (npo s) (npo s)). rewrite upd_ne.
    + apply (rootf_fix _ _ _ (wf_forest s W) i Hi).
    + pose proof (root_lt s i W Hi). lia.
Qed.
Lemma add_object_root_new k can s : wf s -> root (add_object k can s) (npo s) = npo s.
Proof. intros W. apply rootf_self. cbn. apply upd_eq. Qed.

Lemma wf_add_object k can s : wf s -> wf (add_object k can s).
Proof.
  intros W. split.
  - intros i Hi. cbn in Hi |- *. unfold upd. destruct (decide (i = npo s)) as [->|]; [split; [lia|auto]|].
    destruct (wf_par s W i) as [A B]; [lia|]. split; [lia|]. destruct (decide (par s i = npo s)); [lia|auto].
  - cbn. intros i. pose proof (wf_flags s W i) as F. destruct can; [intros; assert (i < npo s) by tauto; lia|].
    rewrite !elem_of_union, !elem_of_singleton. intros H. assert (i = npo s \/ i < npo s) by tauto. lia.
  - cbn. intros i y. unfold upd. destruct (decide (i = npo s)); [set_solver|]. intros H. apply (wf_pts_dom s W) in H. lia.
  - cbn. intros i y. unfold upd. destruct (decide (i = npo s)); [set_solver|]. intros H. apply (wf_pts s W) in H as [H1 H2].
    destruct (decide (y = npo s)); [lia|]. split; [lia|auto].
  - cbn. intros y Hy. assert (y < npo s) by (apply (wf_flags s W); auto). rewrite upd_ne by lia. apply (wf_esc s W); auto.
  - intros y Hy. cbn [add_object fesc] in Hy. assert (y < npo s) by (apply (wf_flags s W); auto). rewrite add_object_root by auto.
    pose proof (wf_esc_pe s W y Hy). cbn. destruct can; [auto|set_solver].
  - intros y Hy. cbn [add_object fesc] in Hy. assert (y < npo s) by (apply (wf_flags s W); auto). rewrite add_object_root by auto.
    pose proof (wf_esc_ext s W y Hy). cbn. destruct can; [auto|set_solver].
Qed.
Lemma W_self s : wf s -> W s s.
Proof. split; auto using static_refl. Qed.
Lemma wf_mark_pe i s : wf s -> i < npo s -> wf (mark_pe i s).1.
Proof. intros Wf Hi. destruct (mark_pe i s) as [s' b] eqn:E. eapply (ok_mark_pe s i Hi s s' b); eauto using W_self. Qed.
Lemma wf_mark_ext i s : wf s -> i < npo s -> wf (mark_ext i s).1.
Proof. intros Wf Hi. destruct (mark_ext i s) as [s' b] eqn:E. eapply (ok_mark_ext s i Hi s s' b); eauto using W_self. Qed.
Lemma wf_mark_escaped i s : wf s -> i < npo s -> kindof s i <> Register -> wf (mark_escaped i s).1.
Proof. intros Wf Hi K. destruct (mark_escaped i s) as [s' b] eqn:E. eapply (ok_mark_escaped s i Hi K s s' b); eauto using W_self. Qed.
Lemma wf_add_pointee p y s : wf s -> p < npo s -> y < npo s -> kindof s y <> Register -> wf (add_pointee p y s).1.
Proof. intros Wf Hp Hy K. destruct (add_pointee p y s) as [s' b] eqn:E. eapply (ok_add_pointee s p y Hp Hy K s s' b); eauto using W_self. Qed.
Lemma wf_add_import can s : wf s -> wf (add_import can s).
Proof.
  intros Wf. apply wf_mark_escaped; [apply wf_add_object; auto|cbn; lia|]. cbn. rewrite upd_eq. discriminate.
Qed.
Lemma wf_mark_sas i s : wf s -> i < npo s -> wf (mark_sas i s).1.
Proof.
  intros Wf Hi. unfold mark_sas. destruct (decide _); cbn; auto. pose proof (root_lt s i Wf Hi).
  destruct Wf as [A1 A2 A3 A4 A5 A6 A7]. split; cbn [npo par rank fesc fpe fext fsas flas pts kindof set_sas]; auto.
  intros j. rewrite elem_of_union, elem_of_singleton. intros Hj. specialize (A2 j).
  destruct Hj as [?|[?|[?|[[->|?]|?]]]]; tauto.
Qed.
Lemma wf_mark_las i s : wf s -> i < npo s -> wf (mark_las i s).1.
Proof.
  intros Wf Hi. unfold mark_las. destruct (decide _); cbn; auto. pose proof (root_lt s i Wf Hi).
  destruct Wf as [A1 A2 A3 A4 A5 A6 A7]. split; cbn [npo par rank fesc fpe fext fsas flas pts kindof set_las]; auto.
  intros j. rewrite elem_of_union, elem_of_singleton. intros Hj. specialize (A2 j).
  destruct Hj as [?|[?|[?|[?|[->|?]]]]]; tauto.
Qed.
Lemma wf_unify a b s : wf s -> a < npo s -> b < npo s -> wf (unify a b s).1.
Proof.
  intros Wf Ha Hb. destruct (unify a b s) as [s' r] eqn:E. destruct (unify_spec s a b s' r Wf Ha Hb E) as [(_ & -> & _)|(_ & W & _)]; auto.
Qed.
Lemma wf_remove_all i s : wf s -> i < npo s -> wf (remove_all_pointees i s).
Proof.
  intros Wf Hi. destruct Wf as [A1 A2 A3 A4 A5 A6 A7].
  split; cbn [npo par rank fesc fpe fext fsas flas pts kindof set_pts remove_all_pointees]; auto.
  - intros j y. unfold upd. destruct (decide _); [set_solver|]. apply A3.
  - intros j y. unfold upd. destruct (decide _); [set_solver|]. apply A4.
Qed.

(** ** unification *)
Section Unify.
  Context (G : prog) (s : pos) (Wf : wf s) (a b : nat) (Ha : a < npo s) (Hb : b < npo s).
  Notation s' := (unify a b s).1.

  Lemma unify_npo : npo s' = npo s.
  Proof using. unfold unify. destruct (decide _); auto. destruct (if decide _ then _ else _). reflexivity. Qed.
  Lemma unify_kind : kindof s' = kindof s.
  Proof using. unfold unify. destruct (decide _); auto. destruct (if decide _ then _ else _). reflexivity. Qed.
  Lemma unify_esc : fesc s' = fesc s.
  Proof using. unfold unify. destruct (decide _); auto. destruct (if decide _ then _ else _). reflexivity. Qed.

  (** x is in one of the two unified classes *)
  Definition in_unified (x : nat) : Prop := root s x = root s a \/ root s x = root s b.
  Lemma in_unified_dec x : in_unified x \/ ~ in_unified x.
  Proof using. unfold in_unified. destruct (decide (root s x = root s a)), (decide (root s x = root s b)); tauto. Qed.

  Lemma unify_same x y : x < npo s -> y < npo s ->
    root s' x = root s' y <-> root s x = root s y \/ (in_unified x /\ in_unified y).
  Proof using Wf Ha Hb.
    intros Hx Hy. destruct (unify a b s) as [t r] eqn:E. cbn [fst]. unfold in_unified.
    destruct (unify_spec s a b t r Wf Ha Hb E) as [(e & -> & _)|(ne & _ & old & U & C)].
    - rewrite e. split; [tauto|intros [|[[|] [|]]]; congruence].
    - rewrite (un_root _ _ _ _ U x Hx), (un_root _ _ _ _ U y Hy).
      destruct (decide (root s x = old)), (decide (root s y = old)); destruct C as [[-> ->]|[-> ->]]; split; intros; try tauto; try congruence;
        intuition congruence.
  Qed.
  Lemma unify_flag (f f' : gset nat) t r old : unified s t r old -> (r = root s a /\ old = root s b \/ r = root s b /\ old = root s a) ->
    (forall j, j ∈ f' <-> j ∈ f \/ (j = r /\ old ∈ f)) -> forall x, x < npo s ->
    root t x ∈ f' <-> root s x ∈ f \/ (in_unified x /\ (root s a ∈ f \/ root s b ∈ f)).
  Proof using.
    intros U C F x Hx. rewrite F, (un_root _ _ _ _ U x Hx). unfold in_unified. pose proof (un_ne _ _ _ _ U) as ne.
    destruct (decide (root s x = old)) as [e|e]; destruct C as [[-> ->]|[-> ->]]; rewrite ?e; try tauto;
        split; intros H; try tauto; intuition (subst; try congruence; auto).
    all: try (left; congruence).
  Qed.
  Lemma unify_ext x : x < npo s -> root s' x ∈ fext s' <-> root s x ∈ fext s \/ (in_unified x /\ (root s a ∈ fext s \/ root s b ∈ fext s)).
  Proof using Wf Ha Hb.
    intros Hx. destruct (unify a b s) as [t r] eqn:E. cbn [fst].
    destruct (unify_spec s a b t r Wf Ha Hb E) as [(e & -> & _)|(ne & _ & old & U & C)]; [|eapply unify_flag; eauto; apply U].
    unfold in_unified. rewrite e. split; [tauto|]. intros [|[[->| ->] [|]]]; auto; rewrite <- ?e; auto.
  Qed.
  Lemma unify_pe x : x < npo s -> root s' x ∈ fpe s' <-> root s x ∈ fpe s \/ (in_unified x /\ (root s a ∈ fpe s \/ root s b ∈ fpe s)).
  Proof using Wf Ha Hb.
    intros Hx. destruct (unify a b s) as [t r] eqn:E. cbn [fst].
    destruct (unify_spec s a b t r Wf Ha Hb E) as [(e & -> & _)|(ne & _ & old & U & C)]; [|eapply unify_flag; eauto; apply U].
    unfold in_unified. rewrite e. split; [tauto|]. intros [|[[->| ->] [|]]]; auto; rewrite <- ?e; auto.
  Qed.
  Lemma unify_sas x : x < npo s -> root s' x ∈ fsas s' <-> root s x ∈ fsas s \/ (in_unified x /\ (root s a ∈ fsas s \/ root s b ∈ fsas s)).
  Proof using Wf Ha Hb.
    intros Hx. destruct (unify a b s) as [t r] eqn:E. cbn [fst].
    destruct (unify_spec s a b t r Wf Ha Hb E) as [(e & -> & _)|(ne & _ & old & U & C)]; [|eapply unify_flag; eauto; apply U].
    unfold in_unified. rewrite e. split; [tauto|]. intros [|[[->| ->] [|]]]; auto; rewrite <- ?e; auto.
  Qed.
  Lemma unify_las x : x < npo s -> root s' x ∈ flas s' <-> root s x ∈ flas s \/ (in_unified x /\ (root s a ∈ flas s \/ root s b ∈ flas s)).
  Proof using Wf Ha Hb.
    intros Hx. destruct (unify a b s) as [t r] eqn:E. cbn [fst].
    destruct (unify_spec s a b t r Wf Ha Hb E) as [(e & -> & _)|(ne & _ & old & U & C)]; [|eapply unify_flag; eauto; apply U].
    unfold in_unified. rewrite e. split; [tauto|]. intros [|[[->| ->] [|]]]; auto; rewrite <- ?e; auto.
  Qed.
  Lemma unify_pts x y : x < npo s -> y ∈ pset s' x <-> y ∈ pset s x \/ (in_unified x /\ (y ∈ pset s a \/ y ∈ pset s b)).
  Proof using Wf Ha Hb.
    intros Hx. destruct (unify a b s) as [t r] eqn:E. cbn [fst]. unfold in_unified, pset.
    destruct (unify_spec s a b t r Wf Ha Hb E) as [(e & -> & _)|(ne & _ & old & U & C)].
    - rewrite e. split; [tauto|]. intros [|[[->| ->] [|]]]; auto; rewrite <- ?e; auto.
    - rewrite (un_root _ _ _ _ U x Hx), (un_pts _ _ _ _ U). pose proof (un_ne _ _ _ _ U) as Hne.
      destruct (decide (root s x = old)) as [e|e].
      + rewrite decide_False, decide_True by auto. rewrite elem_of_union, e. destruct C as [[-> ->]|[-> ->]]; tauto.
      + rewrite decide_False by auto. destruct (decide (root s x = r)) as [e'|e'].
        * rewrite elem_of_union, e'. destruct C as [[-> ->]|[-> ->]]; tauto.
        * destruct C as [[-> ->]|[-> ->]]; tauto.
  Qed.
  (** what the user sees after a unification *)
  Lemma unify_sol x y : x < npo s -> Sol (observe s') x y <-> Sol (observe s) x y \/ (in_unified x /\ (Sol (observe s) a y \/ Sol (observe s) b y)).
  Proof using Wf Ha Hb.
    intros Hx. cbn [Sol observe]. rewrite !pointing_iff, unify_pts, unify_ext, unify_esc by auto. tauto.
  Qed.

  Lemma unify_over cs T : solution G s' cs T -> solution G s cs T.
  Proof using Wf Ha Hb.
    intros [I U C R S1 S2]. rewrite unify_npo in *. rewrite unify_kind in C. split; auto.
    - destruct I as [I1 I2 I3 I4]. split.
      + intros x y Hx H. apply I1; auto. apply unify_sol; auto.
      + intros x Hx H. apply I2; auto. cbn [Ext observe] in *. rewrite ext_iff in *. apply unify_ext; auto.
      + intros x Hx H. apply I3; auto. cbn [Esc observe] in *. rewrite esc_iff in *. rewrite unify_esc; auto.
      + intros x Hx H. apply I4; auto. cbn [Pe observe] in *. rewrite pe_iff in *. apply unify_pe; auto.
    - intros x y Hx Hy E. apply U; auto. apply unify_same; auto.
    - intros x y Hx H. apply S1; auto. unfold is_sas in *. rewrite bool_decide_eq_true in *. apply unify_sas; auto.
    - intros x y Hx H. apply S2; auto. unfold is_las in *. rewrite bool_decide_eq_true in *. apply unify_las; auto.
  Qed.

  (** the flag PointeesEscaping on everything whose pointees all escape *)
  Definition saturate (T : assignment) : assignment :=
    mkassignment (Sol T) (Ext T) (Esc T) (fun x => Pe T x \/ forall y, Sol T x y -> Esc T y).
  Lemma saturate_pe cs T x : solution G s cs T -> x < npo s -> Pe (saturate T) x <-> forall y, Sol T x y -> Esc T y.
  Proof using.
    clear Wf Ha Hb a b. intros HT Hx. cbn. split; [|auto]. intros [P|]; auto. intros y. apply (pointees_escape _ _ _ (so_rules _ _ _ _ HT) x y); auto.
  Qed.
  Lemma saturate_meaning kd T c : meaning G kd T c -> meaning G kd (saturate T) c.
  Proof using.
    clear Wf Ha Hb a b s. destruct c; cbn; unfold external_call, internal_call, includes; cbn; [tauto|tauto|tauto|].
    intros (A & B & C). split; [|split]; auto.
    - intros f Hf K. destruct (A f Hf K). split; auto.
    - intros E. destruct (C E). split; auto.
  Qed.
  Lemma unify_exact cs T : solution G s cs T ->
    (forall y, Sol T a y <-> Sol T b y) -> (Ext T a <-> Ext T b) -> solution G s' cs (saturate T).
  Proof using Wf Ha Hb.
    intros HT ES EX. pose proof HT as [I U C R S1 S2].
    assert (US : forall x, x < npo s -> in_unified x -> forall y, Sol T x y <-> Sol T a y).
    { intros x Hx [E|E] y; [apply (U x a); auto|]. rewrite ES. apply (U x b); auto. }
    assert (UX : forall x, x < npo s -> in_unified x -> Ext T x <-> Ext T a).
    { intros x Hx [E|E]; [apply (U x a); auto|]. rewrite EX. apply (U x b); auto. }
    destruct I as [I1 I2 I3 I4].
    split; rewrite ?unify_npo, ?unify_kind.
    - split; cbn [Sol Ext Esc saturate].
      + intros x y Hx H. apply unify_sol in H; auto. destruct H as [H|(V & [H|H])]; auto.
        * apply (US x Hx V). auto.
        * apply (US x Hx V), ES. auto.
      + intros x Hx H. cbn [Ext observe] in H. rewrite ext_iff in H. apply unify_ext in H; auto. destruct H as [H|(V & [H|H])].
        * apply I2; auto. apply ext_iff; auto.
        * apply (UX x Hx V), I2; auto. apply ext_iff; auto.
        * apply (UX x Hx V), EX, I2; auto. apply ext_iff; auto.
      + intros x Hx H. apply I3; auto. cbn [Esc observe] in *. rewrite esc_iff in *. rewrite unify_esc in H; auto.
      + intros x Hx H. apply (saturate_pe cs T x HT Hx). cbn [Pe observe] in H. rewrite pe_iff in H. apply unify_pe in H; auto.
        assert (Q : forall z, z < npo s -> root s z ∈ fpe s -> forall y, Sol T z y -> Esc T y).
        { intros z Hz P y. apply (pointees_escape _ _ _ R); auto. apply I4; auto. apply pe_iff; auto. }
        destruct H as [H|(V & [H|H])]; [apply Q; auto| |]; intros y Hy; apply (US x Hx V) in Hy; [apply (Q a); auto|apply ES in Hy; apply (Q b); auto].
    - intros x y Hx Hy E. assert (SS : forall z, Sol T x z <-> Sol T y z).
      { intros z. apply unify_same in E; auto. destruct E as [E|[V1 V2]]; [apply (U x y); auto|]. rewrite (US x Hx V1), (US y Hy V2). tauto. }
      split; [|split]; [exact SS| |].
      + cbn. apply unify_same in E; auto. destruct E as [E|[V1 V2]]; [apply (U x y); auto|]. rewrite (UX x Hx V1), (UX y Hy V2). tauto.
      + rewrite !(saturate_pe cs T) by auto. split; intros H z Hz; apply H, SS, Hz.
    - intros c Hc. apply saturate_meaning. auto.
    - destruct R as [R1 R2 R3 R4 R5]. split; cbn; auto.
      + intros x y Hx [P|P]; eauto.
      + intros y Hy. destruct (R2 y Hy). auto.
      + intros f i Hf He Hi. left. eauto.
    - intros x y Hx H Hs. cbn in *. unfold is_sas in H. rewrite bool_decide_eq_true in H. apply unify_sas in H; auto.
      assert (Q : forall z, z < npo s -> root s z ∈ fsas s -> forall y, Sol T z y -> Ext T y).
      { intros z Hz P w. apply S1; auto. unfold is_sas. rewrite bool_decide_eq_true. auto. }
      destruct H as [H|(V & [H|H])]; [apply (Q x); auto| |]; apply (US x Hx V) in Hs; [apply (Q a); auto|apply ES in Hs; apply (Q b); auto].
    - intros x y Hx H Hs. left. cbn in Hs. unfold is_las in H. rewrite bool_decide_eq_true in H. apply unify_las in H; auto.
      assert (Q : forall z, z < npo s -> root s z ∈ flas s -> forall y, Sol T z y -> Pe T y).
      { intros z Hz P w. apply S2; auto. unfold is_las. rewrite bool_decide_eq_true. auto. }
      destruct H as [H|(V & [H|H])]; [apply (Q x); auto| |]; apply (US x Hx V) in Hs; [apply (Q a); auto|apply ES in Hs; apply (Q b); auto].
  Qed.
End Unify.

Lemma cycle_includes G kd (cs : list cstr) T a b : (forall c, c ∈ cs -> meaning G kd T c) -> rtc (fun x y => CSuper y x ∈ cs) a b -> includes T b a.
Proof.
  intros H R. induction R as [x|x y z E R IH]; [split; auto|].
  destruct IH as [A B]. destruct (H _ E) as [A' B']. split; auto.
Qed.

(** ** NormalizeConstraints *)
Lemma normalize_go_spec s : forall cs acc, NoDup acc ->
  NoDup (normalize_go s acc cs) /\ forall c, c ∈ normalize_go s acc cs <-> c ∈ acc \/ exists c0, c0 ∈ cs /\ normalize_one s c0 = Some c.
Proof.
  induction cs as [|c0 cs IH]; intros acc ND; cbn [normalize_go].
  { split; auto. intros c. split; auto. intros [|(x & H & _)]; auto. inversion H. }
  destruct (normalize_one s c0) as [c1|] eqn:E1.
  - destruct (decide (c1 ∈ acc)) as [Hin|Hn].
    + destruct (IH acc ND) as [A B]. split; auto. intros c. rewrite B. split; intros [H|(x & H & E)]; auto.
      * right. exists x. split; auto. right; auto.
      * apply elem_of_cons in H as [->|H]; [rewrite E1 in E; injection E as <-; auto|eauto].
    + assert (ND' : NoDup (acc ++ [c1])).
      { apply NoDup_app. split; auto. split; [|apply NoDup_singleton]. intros x Hx Hx'. apply elem_of_list_singleton in Hx' as ->. auto. }
      destruct (IH _ ND') as [A B]. split; auto. intros c. rewrite B, elem_of_app, elem_of_list_singleton. split.
      * intros [[H| ->]|(x & H & E)]; auto; right; [exists c0; split; [left|auto]|exists x; split; [right; auto|auto]].
      * intros [H|(x & H & E)]; auto. apply elem_of_cons in H as [->|H]; [rewrite E1 in E; injection E as <-; auto|eauto].
  - destruct (IH acc ND) as [A B]. split; auto. intros c. rewrite B. split; intros [H|(x & H & E)]; auto.
    + right. exists x. split; auto. right; auto.
    + apply elem_of_cons in H as [->|H]; [congruence|eauto].
Qed.
Lemma normalize_go_length s : forall cs acc, length (normalize_go s acc cs) <= length acc + length cs.
Proof.
  induction cs as [|c0 cs IH]; intros acc; cbn [normalize_go length]; [lia|]. pose proof (IH acc). destruct (normalize_one s c0) as [c1|]; [|lia].
  destruct (decide _); [lia|]. specialize (IH (acc ++ [c1])). rewrite app_length in IH. cbn in IH. lia.
Qed.

Section Normalize.
  Context (G : prog) (s : pos) (Wf : wf s).
  Lemma un_includes T a b a' b' : (forall x y, x < npo s -> y < npo s -> root s x = root s y ->
      (forall z, Sol T x z <-> Sol T y z) /\ (Ext T x <-> Ext T y) /\ (Pe T x <-> Pe T y)) ->
    a < npo s -> b < npo s -> a' < npo s -> b' < npo s -> root s a = root s a' -> root s b = root s b' -> includes T a b -> includes T a' b'.
  Proof using.
    intros U Ha Hb Ha' Hb' E1 E2 [I1 I2]. destruct (U a a' Ha Ha' E1) as (A1 & A2 & _). destruct (U b b' Hb Hb' E2) as (B1 & B2 & _).
    split; [intros y Hy; apply A1, I1, B1, Hy|tauto].
  Qed.
  (** replacing pointer objects by their roots changes no meaning *)
  Lemma normalize_one_meaning T c : (forall x y, x < npo s -> y < npo s -> root s x = root s y ->
      (forall z, Sol T x z <-> Sol T y z) /\ (Ext T x <-> Ext T y) /\ (Pe T x <-> Pe T y)) ->
    cstr_in (npo s) c ->
    meaning G (kindof s) T c <-> match normalize_one s c with Some c' => meaning G (kindof s) T c' | None => True end.
  Proof using Wf.
    intros U Hc.
    assert (UR : forall x, x < npo s -> (forall z, Sol T (root s x) z <-> Sol T x z) /\ (Ext T (root s x) <-> Ext T x) /\ (Pe T (root s x) <-> Pe T x)).
    { intros x Hx. apply U; auto; [apply root_lt; auto|apply root_root; auto]. }
    destruct c as [a b|p v|v p|p c]; cbn [cstr_in normalize_one] in *.
    - destruct Hc as [Ha Hb]. destruct (decide (root s a = root s b)) as [e|].
      + cbn. split; auto. intros _. destruct (U a b Ha Hb e) as (A & B & _). split; [intros y; apply A|apply B].
      + cbn. destruct (UR a Ha) as (A1 & A2 & _), (UR b Hb) as (B1 & B2 & _). unfold includes.
        split; intros [I1 I2]; (split; [intros y Hy; apply A1, I1, B1, Hy|tauto]).
    - destruct Hc as [Hp Hv]. destruct (UR p Hp) as (A1 & A2 & A3), (UR v Hv) as (B1 & B2 & B3). cbn. unfold includes.
      split; intros [I1 I2]; (split; [|tauto]); intros x Hx; apply A1 in Hx; destruct (I1 x Hx) as [J1 J2];
        (split; [intros y Hy; apply J1, B1, Hy|tauto]).
    - destruct Hc as [Hv Hp]. destruct (UR p Hp) as (A1 & A2 & A3), (UR v Hv) as (B1 & B2 & B3). cbn. unfold includes.
      split; intros [I1 I2]; (split; [|tauto]); intros x Hx; apply A1 in Hx; destruct (I1 x Hx) as [J1 J2];
        (split; [intros y Hy; apply B1, J1, Hy|tauto]).
    - destruct (UR p Hc) as (A1 & A2 & A3). cbn. split; intros (I1 & I2 & I3); (split; [|split]); try tauto; intros f Hf K.
      + apply (I1 f); auto. apply A1; auto.
      + apply (I2 f); auto. apply A1; auto.
      + apply (I1 f); auto. apply A1; auto.
      + apply (I2 f); auto. apply A1; auto.
  Qed.
  Lemma normalize_solution cs T : (forall c, c ∈ cs -> cstr_in (npo s) c) -> solution G s cs T <-> solution G s (normalize s cs).1 T.
  Proof using Wf.
    intros HC. destruct (normalize_go_spec s cs [] (NoDup_nil_2)) as [_ B]. cbn [fst normalize].
    split; intros [I U C R S1 S2]; split; auto.
    - intros c Hc. apply B in Hc as [H|(c0 & H & E)]; [inversion H|].
      pose proof (proj1 (normalize_one_meaning T c0 U (HC c0 H)) (C c0 H)) as M. rewrite E in M. auto.
    - intros c Hc. apply (normalize_one_meaning T c U (HC c Hc)). destruct (normalize_one s c) as [c'|] eqn:E; auto.
      apply C, B. right. eauto.
  Qed.
End Normalize.

(** ** HasIdenticalSolAs *)
Lemma identical_iff s t : wf s -> wf t -> identical_sol s t = true <-> npo s = npo t /\ same_sol (npo s) (observe s) (observe t).
Proof.
  intros Ws Wt. unfold identical_sol. rewrite andb_true_iff, Nat.eqb_eq, forallb_forall.
  split; intros [N H]; split; auto.
  - assert (H' : forall x, x < npo s -> has_escaped s x = has_escaped t x /\ is_ext s x = is_ext t x /\
       (forall y, y ∈ pset s x -> is_pointing_to t x y = true) /\ (forall y, y ∈ pset t x -> is_pointing_to s x y = true)).
    { intros x Hx. specialize (H x (proj2 (in_seq _ _ _) (conj (Nat.le_0_l x) Hx))). rewrite !andb_true_iff, !eqb_true_iff, !forallb_forall in H.
      destruct H as [[[H1 H2] H3] H4]. split; [auto|]. split; [auto|]. split; intros y Hy; [apply H3|apply H4]; apply elem_of_list_In, elem_of_elements; auto. }
    intros x Hx. destruct (H' x Hx) as (H1 & H2 & H3 & H4). cbn [Sol Ext Esc observe]. rewrite H1, H2. split; [tauto|]. split; [tauto|].
    intros y Hy. destruct (H' y Hy) as (E1 & _).
    split; intros P; pose proof P as Q; unfold is_pointing_to in P; apply orb_true_iff in P as [P|P].
    + unfold is_pointing_to. rewrite <- H2, <- E1, P. auto.
    + apply bool_decide_eq_true in P. auto.
    + unfold is_pointing_to. rewrite H2, E1, P. auto.
    + apply bool_decide_eq_true in P. auto.
  - intros x Hx. apply in_seq in Hx as [_ Hx]. destruct (H x Hx) as (H1 & H2 & H3). cbn [Sol Ext Esc observe] in *.
    rewrite !andb_true_iff, !eqb_true_iff, !forallb_forall.
    assert (B : forall b c : bool, (b = true <-> c = true) -> b = c) by (intros [] [] []; auto; symmetry; auto).
    split; [split; [split; apply B; auto|]|]; intros y Hy; apply elem_of_list_In, elem_of_elements in Hy.
    + apply H3; [apply (wf_pts s Ws) in Hy; tauto|]. apply pointing_iff. auto.
    + apply H3; [apply (wf_pts t Wt) in Hy; lia|]. apply pointing_iff. auto.
Qed.

(** ** loops that do not change the set they iterate over *)
Section Live.
  Context (ord : forall A : Type, nat -> list A -> list A) (ord_perm : forall A k (l : list A), ord A k l ≡ₚ l).
  Context (s0 : pos) (G : prog) (WG : wf_prog (npo s0) (kindof s0) G) (r : nat) (X : gset nat).
  Definition same_at (s : pos) : Prop := pts s r = X.
  Notation keeps := (keeps s0 same_at).

  Lemma sa_add_pointee p y : root s0 p <> r -> keeps (add_pointee p y).
  Proof using.
    intros N s s' b HW HJ E. unfold add_pointee in E. destruct (decide _); injection E as <- <-; auto.
    unfold same_at. cbn [pts set_pts]. rewrite (W_root s0 s p HW). rewrite upd_ne; auto.
  Qed.
  Lemma sa_mark_ext i : keeps (mark_ext i).
  Proof using. intros s s' b HW HJ E. unfold mark_ext in E. destruct (decide _); injection E as <- <-; auto. Qed.
  Lemma sa_mark_pe i : keeps (mark_pe i).
  Proof using. intros s s' b HW HJ E. unfold mark_pe in E. destruct (decide _); injection E as <- <-; auto. Qed.
  Lemma sa_make_superset a b : a < npo s0 -> b < npo s0 -> root s0 a <> r -> keeps (make_superset ord a b).
  Proof using ord_perm.
    intros Ha Hb N s s' f HW HJ E. rewrite (make_superset_eq ord s0 a b s HW) in E.
    destruct (decide _) as [e|ne]; [injection E as <- <-; auto|].
    pose proof (root0_lt s0 a s HW Ha) as La. pose proof (root0_root s0 a s HW Ha) as Ra.
    refine (keeps_seq s0 same_at _ _ _ _ _ s s' f HW HJ E).
    - apply ok_forset_valid; auto; [intros; eapply pset_valid; eauto|]. intros. apply ok_add_pointee; auto.
    - apply (keeps_forset ord ord_perm s0 same_at (valid s0)).
      + auto.
      + intros t HWt Ht y Hy. eapply pset_valid; eauto.
      + intros y [V1 V2]. apply ok_add_pointee; auto.
      + intros y _. apply sa_add_pointee. congruence.
    - apply keeps_if. intros t HWt Ht Hx t' b' E'. eapply sa_mark_ext; eauto.
  Qed.
  Lemma sa_forsome l f : (forall i, Some i ∈ l -> op_ok s0 (f i)) -> (forall i, Some i ∈ l -> keeps (f i)) -> keeps (forsome l f).
  Proof using. intros H1 H2. apply keeps_for; intros [i|] Hi; auto using ok_nop, keeps_nop. Qed.
  Lemma sa_external c : keeps (calling_external G c).
  Proof using WG.
    apply keeps_seq.
    - apply ok_forsome; intros i Hi. apply ok_mark_pe. eapply wg_cargs; eauto.
    - apply sa_forsome; intros i Hi; [apply ok_mark_pe|apply sa_mark_pe]; auto; eapply wg_cargs; eauto.
    - apply sa_forsome; intros i Hi; [apply ok_mark_ext|apply sa_mark_ext]; auto; eapply wg_couts; eauto.
  Qed.
  Lemma sa_internal c f : (forall i, Some i ∈ fargs G f -> root s0 i <> r) -> (forall i, Some i ∈ couts G c -> root s0 i <> r) ->
    keeps (calling_lambda ord G c f).
  Proof using WG ord_perm.
    intros H1 H2. apply keeps_seq; [apply (ok_params ord ord_perm s0 G WG)| |]; apply keeps_for; intros [[i|] [j|]] Hp; auto using ok_nop, keeps_nop.
    - apply ok_make_superset; auto; [eapply wg_fargs, elem_of_zip_r|eapply wg_cargs, elem_of_zip_l]; eauto.
    - apply sa_make_superset; [eapply wg_fargs, elem_of_zip_r; eauto|eapply wg_cargs, elem_of_zip_l; eauto|]. apply H1. eapply elem_of_zip_r; eauto.
    - apply ok_make_superset; auto; [eapply wg_couts, elem_of_zip_l|eapply wg_fresults, elem_of_zip_r]; eauto.
    - apply sa_make_superset; [eapply wg_couts, elem_of_zip_l; eauto|eapply wg_fresults, elem_of_zip_r; eauto|]. apply H2. eapply elem_of_zip_l; eauto.
  Qed.
End Live.
