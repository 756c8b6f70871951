(** The naive solver computes the least solution. *)
From stdpp Require Import base list list_numbers fin_sets gmap.
From Coq Require Import Lia.
From Verif.Andersen Require Import Model Spec Proofs Proofs2 Proofs3.

Lemma pointing_iff s x y : is_pointing_to s x y = true <-> (root s x ∈ fext s /\ y ∈ fesc s) \/ y ∈ pset s x.
Proof. unfold is_pointing_to, is_ext, has_escaped. rewrite orb_true_iff, andb_true_iff, !bool_decide_eq_true. auto. Qed.
Lemma ext_iff s x : is_ext s x = true <-> root s x ∈ fext s.
Proof. apply bool_decide_eq_true. Qed.
Lemma esc_iff s x : has_escaped s x = true <-> x ∈ fesc s.
Proof. apply bool_decide_eq_true. Qed.
Lemma pe_iff s x : has_pe s x = true <-> root s x ∈ fpe s.
Proof. apply bool_decide_eq_true. Qed.

Section Closed.
  Context (G : prog) (s : pos) (Wf : wf s) (WG : wf_prog (npo s) (kindof s) G) (C : closed G s).
  Notation T := (observe s).

  Lemma esc_lt y : y ∈ fesc s -> y < npo s.
  Proof using Wf. intros. apply (wf_flags s Wf); auto. Qed.
  Lemma pset_lt x y : y ∈ pset s x -> y < npo s.
  Proof using Wf. intros H. apply (wf_pts s Wf) in H. tauto. Qed.
  Lemma sol_lt x y : Sol T x y -> y < npo s.
  Proof using Wf. cbn. rewrite pointing_iff. intros [[_ H]|H]; [apply esc_lt; auto|eapply pset_lt; eauto]. Qed.
  Lemma sol_esc x y : x < npo s -> root s x ∈ fpe s -> Sol T x y -> y ∈ fesc s.
  Proof using C. cbn. rewrite pointing_iff. intros Hx Hp [[_ H]|H]; auto. eapply cd_pe; eauto. Qed.
  Lemma incl_includes a b : incl s a b -> includes T a b.
  Proof using.
    intros [H1 H2]. split; cbn.
    - intros y. rewrite !pointing_iff. intros [[A B]|A]; auto.
    - rewrite !ext_iff. auto.
  Qed.
  (** everything reachable through external memory is included in everything pointing to external *)
  Lemma implicit_includes a b : b < npo s -> root s a ∈ fext s -> root s b ∈ fpe s -> includes T a b.
  Proof using C.
    intros Hb Ha Hp. split; cbn.
    - intros y Hy. apply pointing_iff. left. split; auto. eapply (sol_esc b); eauto.
    - intros _. apply ext_iff. auto.
  Qed.
  Lemma closed_rules : escape_rules (npo s) G T.
  Proof using C Wf WG.
    split; cbn.
    - intros x y Hx Hp Hs. apply pe_iff in Hp. apply esc_iff. eapply sol_esc; eauto.
    - intros y Hy. apply esc_iff in Hy. split; [apply pe_iff; apply (wf_esc_pe s Wf); auto|apply ext_iff; apply (wf_esc_ext s Wf); auto].
    - intros x y _ Hx Hy. apply pointing_iff. rewrite ext_iff in Hx. rewrite esc_iff in Hy. auto.
    - intros f i Hf He Hi. apply esc_iff in He. apply ext_iff. eapply cd_fargs; eauto.
    - intros f i Hf He Hi. apply esc_iff in He. apply pe_iff. eapply cd_fres; eauto.
  Qed.
  Lemma external_obs c : cl_external G s c -> external_call G T c.
  Proof using. intros [H1 H2]. split; intros i Hi; cbn; [apply pe_iff|apply ext_iff]; auto. Qed.
  Lemma zip_lookup {A B} (l1 : list A) (l2 : list B) k x y : l1 !! k = Some x -> l2 !! k = Some y -> (x, y) ∈ zip l1 l2.
  Proof using. intros H1 H2. apply elem_of_list_lookup. exists k. apply lookup_zip_with_Some. eauto. Qed.
  Lemma internal_obs c f : cl_internal G s c f -> internal_call G T c f.
  Proof using.
    intros [H1 H2]. split; intros k i j Hi Hj; apply incl_includes.
    - apply (H1 (Some i, Some j)). eapply zip_lookup; eauto.
    - apply (H2 (Some i, Some j)). eapply zip_lookup; eauto.
  Qed.
  Lemma closed_meaning c : cstr_in (npo s) c -> cl_cstr G s c -> meaning G (kindof s) T c.
  Proof using C Wf WG.
    destruct c as [a b|p v|v p|p c]; cbn [cstr_in cl_cstr meaning].
    - intros _. apply incl_includes.
    - intros [Hp Hv] [H1 H2]. split; [|cbn; rewrite ext_iff, pe_iff; auto].
      intros x Hx. cbn in Hx. apply pointing_iff in Hx as [[A B]|A]; [|apply incl_includes; auto].
      apply implicit_includes; auto. apply (wf_esc_ext s Wf); auto.
    - intros [Hv Hp] [H1 H2]. split; [|cbn; rewrite !ext_iff; auto].
      intros x Hx. cbn in Hx. apply pointing_iff in Hx as [[A B]|A]; [|apply incl_includes; auto].
      apply implicit_includes; auto; [apply esc_lt; auto|apply (wf_esc_pe s Wf); auto].
    - intros Hp [H1 H2]. split; [|split].
      + intros f Hf Hk. cbn in Hf. apply pointing_iff in Hf as [[A B]|A]; [apply external_obs; auto|].
        specialize (H1 f A). unfold cl_call in H1. rewrite Hk in H1. apply external_obs; auto.
      + intros f Hf Hk. cbn in Hf. apply pointing_iff in Hf as [[A B]|A].
        2: { specialize (H1 f A). unfold cl_call in H1. rewrite Hk in H1. apply internal_obs; auto. }
        destruct (H2 A) as [E1 E2].
        assert (Ff : f ∈ functions G) by (apply (wg_functions _ _ _ WG f); auto; apply esc_lt; auto).
        split; intros k i j Hi Hj.
        * assert (Some i ∈ cargs G c) by (eapply elem_of_list_lookup_2; eauto). assert (Some j ∈ fargs G f) by (eapply elem_of_list_lookup_2; eauto).
          apply implicit_includes; [eapply wg_cargs; eauto|eapply cd_fargs; eauto|auto].
        * assert (Some i ∈ couts G c) by (eapply elem_of_list_lookup_2; eauto). assert (Some j ∈ fresults G f) by (eapply elem_of_list_lookup_2; eauto).
          apply implicit_includes; [eapply wg_fresults; eauto|auto|eapply cd_fres; eauto].
      + cbn. rewrite ext_iff. intros A. apply external_obs; auto.
  Qed.
End Closed.

(** a closed state above [s0] is a solution *)
Lemma closed_solution G s0 s cs : wf s -> wf_prog (npo s) (kindof s) G -> le s0 s -> closed G s ->
  (forall c, c ∈ cs -> cstr_in (npo s) c) -> (forall c, c ∈ cs -> cl_cstr G s c) -> solution G s0 cs (observe s).
Proof.
  intros Wf WG L C HC HCl. pose proof (fun i => static_root _ _ i (le_static _ _ L)) as R.
  destruct L as [S L1 L2 L3 L4]. pose proof (st_npo _ _ S) as N.
  split.
  - split; cbn.
    + intros x y Hx. rewrite !pointing_iff. unfold pset. rewrite R. intros [[A B]|A]; [left; auto|right; apply L4; auto].
    + intros x Hx. rewrite !ext_iff, R. auto.
    + intros x Hx. rewrite !esc_iff. auto.
    + intros x Hx. rewrite !pe_iff, R. auto.
  - intros x y Hx Hy E. cbn. split; [|split].
    + intros z. rewrite !pointing_iff. unfold pset. rewrite !R, E. auto.
    + rewrite !ext_iff, !R, E. auto.
    + rewrite !pe_iff, !R, E. auto.
  - intros c Hc. rewrite <- (st_kind _ _ S). apply closed_meaning; auto.
  - rewrite <- N. apply closed_rules; auto.
  - intros x y Hx Hs Hy. cbn [Sol Ext Esc Pe observe] in *. apply pointing_iff in Hy as [[A B]|A]; apply ext_iff; [apply (wf_esc_ext s Wf); auto|].
    unfold is_sas in Hs. apply bool_decide_eq_true in Hs. apply (cd_sas G s C x y); [lia|rewrite R, (st_sas _ _ S); auto|auto].
  - intros x y Hx Hs Hy. cbn [Sol Ext Esc Pe observe] in *. apply pointing_iff in Hy as [[A B]|A]; apply pe_iff; [apply (wf_esc_pe s Wf); auto|].
    unfold is_las in Hs. apply bool_decide_eq_true in Hs. apply (cd_las G s C x y); [lia|rewrite R, (st_las _ _ S); auto|auto].
Qed.

(** ** minimality *)
Section Least.
  Context (ord : forall A : Type, nat -> list A -> list A) (ord_perm : forall A k (l : list A), ord A k l ≡ₚ l).
  Context (s0 : pos) (G : prog) (WG : wf_prog (npo s0) (kindof s0) G) (cs : list cstr) (T : assignment) (HT : solution G s0 cs T).
  Notation W := (W s0). Notation op_ok := (op_ok s0).

  (** every fact of [s] is in [T] *)
  Record J (s : pos) : Prop := {
    j_pts : forall i y, i < npo s0 -> y ∈ pset s i -> Sol T i y;
    j_ext : forall i, i < npo s0 -> root s i ∈ fext s -> Ext T i;
    j_esc : forall y, y ∈ fesc s -> Esc T y;
    j_pe : forall i, i < npo s0 -> root s i ∈ fpe s -> Pe T i }.
  Notation keeps := (keeps s0 J).

  Lemma J_bump s : J s -> J (bump s).
  Proof using. intros []. split; auto. Qed.
  Lemma un_sol i j y : i < npo s0 -> j < npo s0 -> root s0 i = root s0 j -> Sol T i y -> Sol T j y.
  Proof using HT. intros Hi Hj E. apply (so_unified _ _ _ _ HT i j Hi Hj E). Qed.
  Lemma un_Ext i j : i < npo s0 -> j < npo s0 -> root s0 i = root s0 j -> Ext T i -> Ext T j.
  Proof using HT. intros Hi Hj E. apply (so_unified _ _ _ _ HT i j Hi Hj E). Qed.
  Lemma un_Pe i j : i < npo s0 -> j < npo s0 -> root s0 i = root s0 j -> Pe T i -> Pe T j.
  Proof using HT. intros Hi Hj E. apply (so_unified _ _ _ _ HT i j Hi Hj E). Qed.

  Lemma k_mark_pe i : i < npo s0 -> Pe T i -> keeps (mark_pe i).
  Proof using HT.
    intros Hi HP s s' b HW HJ E. unfold mark_pe in E. destruct (decide _); injection E as <- <-; auto.
    destruct HJ as [H1 H2 H3 H4]. split; auto. cbn [fpe set_pe]. intros j Hj. change (root (set_pe _ s) j) with (root s j).
    rewrite elem_of_union, elem_of_singleton. intros [E|E]; auto. rewrite !(W_root s0 s _ HW) in E. eapply (un_Pe i); eauto.
  Qed.
  Lemma k_mark_ext i : i < npo s0 -> Ext T i -> keeps (mark_ext i).
  Proof using HT.
    intros Hi HP s s' b HW HJ E. unfold mark_ext in E. destruct (decide _); injection E as <- <-; auto.
    destruct HJ as [H1 H2 H3 H4]. split; auto. cbn [fext set_ext]. intros j Hj. change (root (set_ext _ s) j) with (root s j).
    rewrite elem_of_union, elem_of_singleton. intros [E|E]; auto. rewrite !(W_root s0 s _ HW) in E. eapply (un_Ext i); eauto.
  Qed.
  Lemma k_mark_escaped y : y < npo s0 -> Esc T y -> keeps (mark_escaped y).
  Proof using HT.
    intros Hy HE s s' b HW HJ E. destruct b.
    2: { unfold mark_escaped in E. destruct (decide _); [|discriminate]. injection E as <-. auto. }
    destruct (mark_escaped_state _ _ _ E) as [_ [S E1 E2 E3 E4]].
    destruct (escaped_is_accessible _ _ _ (so_rules _ _ _ _ HT) y HE) as [HP HX].
    destruct HJ as [H1 H2 H3 H4]. split.
    - intros i z. unfold pset. rewrite (static_root _ _ _ S), E4. apply H1.
    - intros i Hi. rewrite (static_root _ _ _ S), E3, elem_of_union, elem_of_singleton. intros [X|X]; auto.
      rewrite !(W_root s0 s _ HW) in X. eapply (un_Ext y); eauto.
    - intros z. rewrite E1, elem_of_union, elem_of_singleton. intros [->|]; auto.
    - intros i Hi. rewrite (static_root _ _ _ S), E2, elem_of_union, elem_of_singleton. intros [X|X]; auto.
      rewrite !(W_root s0 s _ HW) in X. eapply (un_Pe y); eauto.
  Qed.
  Lemma k_add_pointee p y : p < npo s0 -> Sol T p y -> keeps (add_pointee p y).
  Proof using HT.
    intros Hp HS s s' b HW HJ E. unfold add_pointee in E. destruct (decide _); injection E as <- <-; auto.
    destruct HJ as [H1 H2 H3 H4]. split; auto. intros i z Hi. unfold pset. cbn [pts set_pts]. change (root (set_pts _ s) i) with (root s i).
    unfold upd. destruct (decide (root s i = root s p)) as [e|]; [|apply H1; auto].
    rewrite elem_of_union, elem_of_singleton. rewrite !(W_root s0 s _ HW) in e. intros [->|X]; [eapply (un_sol p); eauto|].
    apply H1; auto. unfold pset. rewrite (W_root s0 s _ HW), e, <- (W_root s0 s _ HW). auto.
  Qed.
  Lemma k_make_superset a b : a < npo s0 -> b < npo s0 -> includes T a b -> keeps (make_superset ord a b).
  Proof using HT ord_perm.
    intros Ha Hb [I1 I2] s s' r HW HJ E. rewrite (make_superset_eq ord s0 a b s HW) in E.
    destruct (decide _) as [e|ne]; [injection E as <- <-; auto|].
    pose proof (root0_lt s0 a s HW Ha) as La. pose proof (root0_root s0 a s HW Ha) as Ra.
    pose proof (root0_lt s0 b s HW Hb) as Lb. pose proof (root0_root s0 b s HW Hb) as Rb.
    revert E. eapply (keeps_seq s0 J _ _); auto.
    - apply ok_forset_valid; auto; [intros; eapply pset_valid; eauto|]. intros. apply ok_add_pointee; auto.
    - apply (keeps_forset ord ord_perm s0 J (fun y => valid s0 y /\ Sol T (root s0 a) y)).
      + apply J_bump.
      + intros t HWt Ht y Hy. split; [eapply pset_valid; eauto|]. apply (un_sol a (root s0 a)); auto. apply I1.
        apply (j_pts t Ht); auto. unfold pset. rewrite (W_root s0 t _ HWt). auto.
      + intros y [[V1 V2] _]. apply ok_add_pointee; auto.
      + intros y [_ V]. apply k_add_pointee; auto.
    - apply keeps_if. intros t HWt Ht Hx t' b' E. apply (k_mark_ext (root s0 a) La) with t b'; auto. apply (un_Ext a (root s0 a)); auto. apply I2.
      apply ext_iff in Hx. rewrite (W_root s0 t _ HWt), Rb in Hx. apply (j_ext t Ht); auto. rewrite (W_root s0 t _ HWt). auto.
  Qed.
  Lemma k_forsome l f : (forall i, Some i ∈ l -> op_ok (f i)) -> (forall i, Some i ∈ l -> keeps (f i)) -> keeps (forsome l f).
  Proof using. intros H1 H2. apply keeps_for; intros [i|] Hi; auto using ok_nop, keeps_nop. Qed.
  Lemma k_external c : external_call G T c -> keeps (calling_external G c).
  Proof using HT WG.
    intros [H1 H2]. apply keeps_seq.
    - apply ok_forsome; intros i Hi. apply ok_mark_pe. eapply wg_cargs; eauto.
    - apply k_forsome; intros i Hi; [apply ok_mark_pe|apply k_mark_pe]; auto; eapply wg_cargs; eauto.
    - apply k_forsome; intros i Hi; [apply ok_mark_ext|apply k_mark_ext]; auto; eapply wg_couts; eauto.
  Qed.
  Lemma k_internal c f : internal_call G T c f -> keeps (calling_lambda ord G c f).
  Proof using HT WG ord_perm.
    intros [H1 H2]. apply keeps_seq; [apply (ok_params ord ord_perm s0 G WG)| |]; apply keeps_for; intros [[i|] [j|]] Hp; auto using ok_nop, keeps_nop.
    - apply ok_make_superset; auto; [eapply wg_fargs, elem_of_zip_r|eapply wg_cargs, elem_of_zip_l]; eauto.
    - apply k_make_superset; [eapply wg_fargs, elem_of_zip_r|eapply wg_cargs, elem_of_zip_l|]; eauto.
      apply elem_of_list_lookup in Hp as [k Hk]. apply lookup_zip_with_Some in Hk as (x & y & E & Hx & Hy). injection E as <- <-. eauto.
    - apply ok_make_superset; auto; [eapply wg_couts, elem_of_zip_l|eapply wg_fresults, elem_of_zip_r]; eauto.
    - apply k_make_superset; [eapply wg_couts, elem_of_zip_l|eapply wg_fresults, elem_of_zip_r|]; eauto.
      apply elem_of_list_lookup in Hp as [k Hk]. apply lookup_zip_with_Some in Hk as (x & y & E & Hx & Hy). injection E as <- <-. eauto.
  Qed.
  Lemma k_apply c : c ∈ cs -> cstr_in (npo s0) c -> keeps (apply ord G c).
  Proof using HT WG ord_perm.
    intros Hc Hin. pose proof (so_constraints _ _ _ _ HT c Hc) as M. destruct c as [a b|p v|v p|p c]; cbn [cstr_in meaning apply] in *.
    - apply k_make_superset; tauto.
    - destruct Hin as [Hp Hv]. destruct M as [M1 M2]. apply keeps_seq.
      + apply ok_forset_valid; auto; [intros; eapply pset_valid; eauto|]. intros. apply ok_make_superset; auto.
      + apply (keeps_forset ord ord_perm s0 J (fun x => valid s0 x /\ includes T x v)); [apply J_bump|..].
        * intros s HW HJ x Hx. split; [eapply pset_valid; eauto|]. apply M1. eapply j_pts; eauto.
        * intros x [[V _] _]. apply ok_make_superset; auto.
        * intros x [[V _] I]. apply k_make_superset; auto.
      + apply keeps_if. intros s HW HJ X s' b E. eapply k_mark_pe; eauto. apply M2. apply (j_ext s HJ); auto. apply ext_iff; auto.
    - destruct Hin as [Hv Hp]. destruct M as [M1 M2]. apply keeps_seq.
      + apply ok_forset_valid; auto; [intros; eapply pset_valid; eauto|]. intros. apply ok_make_superset; auto.
      + apply (keeps_forset ord ord_perm s0 J (fun x => valid s0 x /\ includes T v x)); [apply J_bump|..].
        * intros s HW HJ x Hx. split; [eapply pset_valid; eauto|]. apply M1. eapply j_pts; eauto.
        * intros x [[V _] _]. apply ok_make_superset; auto.
        * intros x [[V _] I]. apply k_make_superset; auto.
      + apply keeps_if. intros s HW HJ X s' b E. apply (k_mark_ext v Hv (M2 ltac:(apply (j_ext s HJ); auto; apply ext_iff; auto)) s s' b HW HJ E).
    - destruct M as (M1 & M2 & M3). apply keeps_seq.
      + apply ok_forset_valid; auto; [intros; eapply pset_valid; eauto|]. intros. apply (ok_call_body ord ord_perm s0 G WG).
      + apply (keeps_forset ord ord_perm s0 J (fun f => Sol T p f)); [apply J_bump|..].
        * intros s HW HJ x Hx. eapply j_pts; eauto.
        * intros x _. apply (ok_call_body ord ord_perm s0 G WG).
        * intros f Hf s s' b HW HJ E. rewrite (W_kind s0 s HW) in E. destruct (kindof s0 f) eqn:K; try (injection E as <- <-; auto; fail).
          -- eapply k_internal; eauto.
          -- eapply k_external; eauto.
      + apply keeps_if. intros s HW HJ X s' b E. eapply k_external; eauto. apply M3. apply (j_ext s HJ); auto. apply ext_iff; auto.
  Qed.
  Lemma k_scalar : keeps (scalar_flags ord).
  Proof using HT WG ord_perm.
    intros s s' b HW HJ E. rewrite (scalar_flags_eq ord s0) in E by auto.
    refine (keeps_for s0 J _ _ _ _ s s' b HW HJ E).
    { intros; apply ok_scalar_body; auto. }
    intros i Hi. apply elem_of_seq in Hi as [_ Hi]. cbn in Hi. apply keeps_if. clear s s' b HW HJ E.
    assert (K : keeps (ifop (fun s => is_sas s i) (forset ord (fun s => pset s i) mark_ext) ;+ ifop (fun s => is_las s i) (forset ord (fun s => pset s i) mark_pe))).
    { apply keeps_seq.
      - apply ok_if, ok_forset_valid; auto; [intros; eapply pset_valid; eauto|]. intros. apply ok_mark_ext; auto.
      - apply keeps_if. intros s HW HJ Hs s' b E. revert E.
        apply (keeps_forset ord ord_perm s0 J (fun x => valid s0 x /\ Ext T x)); auto using J_bump.
        + intros t HWt HJt y Hy. split; [eapply pset_valid; eauto|]. apply (so_stored _ _ _ _ HT i y); auto.
          * unfold is_sas in *. rewrite bool_decide_eq_true in *. rewrite <- (W_root s0 s _ HW). rewrite <- (st_sas _ _ (proj2 HW)). auto.
          * eapply j_pts; eauto.
        + intros x [[V _] _]. apply ok_mark_ext; auto.
        + intros x [[V _] X]. apply k_mark_ext; auto.
      - apply keeps_if. intros s HW HJ Hs s' b E. revert E.
        apply (keeps_forset ord ord_perm s0 J (fun x => valid s0 x /\ Pe T x)); auto using J_bump.
        + intros t HWt HJt y Hy. split; [eapply pset_valid; eauto|]. apply (so_loaded _ _ _ _ HT i y); auto.
          * unfold is_las in *. rewrite bool_decide_eq_true in *. rewrite <- (W_root s0 s _ HW). rewrite <- (st_las _ _ (proj2 HW)). auto.
          * eapply j_pts; eauto.
        + intros x [[V _] _]. apply ok_mark_pe; auto.
        + intros x [[V _] X]. apply k_mark_pe; auto. }
    intros s HW HJ _ s' b E. eapply K; eauto.
  Qed.
  Lemma k_escape_pointees : forall l s s' b q, W s -> J s -> (forall y, y ∈ l -> valid s0 y /\ Esc T y) -> escape_pointees l s = (s', b, q) ->
    J s' /\ forall x, x ∈ q -> x < npo s0 /\ Pe T x.
  Proof using HT.
    clear ord_perm ord. induction l as [|y l IH]; intros s s' b q HW HJ HV E; cbn [escape_pointees] in E.
    { injection E as <- <- <-. split; auto. intros x Hx; inversion Hx. }
    destruct (mark_escaped y s) as [s1 b1] eqn:E1. destruct (escape_pointees l s1) as [[s2 b2] q2] eqn:E2. injection E as <- <- <-.
    destruct (HV y) as [[V1 V2] VE]; [left|].
    destruct (ok_mark_escaped s0 y V1 V2 s s1 b1 HW E1) as (W1 & _).
    assert (J1 : J s1) by (exact (k_mark_escaped y V1 VE s s1 b1 HW HJ E1)).
    destruct (IH _ _ _ _ W1 J1 (fun z Hz => HV z (elem_of_list_further _ _ _ Hz)) E2) as [J2 Q]. split; auto.
    intros x Hx. destruct (has_pe s (root s y)); auto. apply elem_of_cons in Hx as [->|Hx]; auto.
    rewrite (W_root s0 s y HW). split; [eapply root0_lt; eauto|]. apply (un_Pe y); auto; [eapply root0_lt; eauto|symmetry; eapply root0_root; eauto|].
    apply (escaped_is_accessible _ _ _ (so_rules _ _ _ _ HT) y VE).
  Qed.
  Lemma k_escape_loop : forall fuel queue s s' b, W s -> J s -> (forall x, x ∈ queue -> x < npo s0 /\ Pe T x) ->
    escape_loop ord fuel queue s = Some (s', b) -> J s'.
  Proof using HT ord_perm.
    induction fuel as [|fuel IH]; intros queue s s' b HW HJ HQ E; destruct queue as [|x queue]; cbn [escape_loop] in E;
      try discriminate; try (injection E as <- <-; auto; fail).
    set (l := ord nat (tick s) (elements (pset s x))) in *.
    destruct (escape_pointees l (bump s)) as [[s1 b1] q] eqn:E1.
    destruct (escape_loop ord fuel (queue ++ q) s1) as [[s2 b2]|] eqn:E2; cbn in E; [|discriminate]. injection E as <- <-.
    destruct (HQ x) as [Hx HP]; [left|].
    assert (Hl : forall y, y ∈ l -> valid s0 y /\ Esc T y).
    { intros y Hy. unfold l in Hy. rewrite ord_perm in Hy. apply elem_of_elements in Hy. split; [eapply pset_valid; eauto|].
      apply (pointees_escape _ _ _ (so_rules _ _ _ _ HT) x y); auto. eapply j_pts; eauto. }
    destruct (escape_pointees_ok s0 l _ _ _ _ (W_bump s0 s HW) (fun y Hy => proj1 (Hl y Hy)) E1) as (W1 & _).
    destruct (k_escape_pointees l _ _ _ _ (W_bump s0 s HW) (J_bump s HJ) Hl E1) as [J1 Q1].
    eapply (IH (queue ++ q)); eauto. intros z Hz. apply elem_of_app in Hz as [|]; auto. apply HQ. right; auto.
  Qed.
  Lemma k_escape_flags s s' b : W s -> J s -> escape_flags ord s = Some (s', b) -> J s'.
  Proof using HT WG ord_perm.
    intros HW HJ E. unfold escape_flags in E. destruct (scalar_flags ord s) as [s1 b1] eqn:E1.
    destruct (escape_loop ord (2 * npo s) (escape_queue s1) s1) as [[s2 b2]|] eqn:E2; cbn in E; [|discriminate]. injection E as <- <-.
    destruct (ok_scalar_flags ord ord_perm s0 _ _ _ HW E1) as (W1 & _).
    assert (J1 : J s1) by (exact (k_scalar s s1 b1 HW HJ E1)).
    eapply k_escape_loop; eauto. intros x Hx. unfold escape_queue in Hx. apply elem_of_list_filter in Hx as [Hp Hx].
    apply elem_of_seq in Hx. rewrite (W_npo s0 s1 W1) in Hx. split; [lia|].
    apply Is_true_true, andb_true_iff in Hp as [_ Hp]. apply pe_iff in Hp. eapply j_pe; eauto. lia.
  Qed.
  Lemma k_escaped_functions : keeps (escaped_functions G).
  Proof using HT WG.
    apply keeps_for; intros f Hf; [apply ok_if, ok_escaped_function; auto|].
    apply keeps_if. intros s HW HJ He s' b E. apply esc_iff in He. pose proof (j_esc s HJ f He) as Ef.
    pose proof (so_rules _ _ _ _ HT) as R. refine (keeps_seq s0 J _ _ _ _ _ s s' b HW HJ E).
    - apply ok_forsome; intros i Hi. apply ok_if, ok_mark_ext. eapply wg_fargs; eauto.
    - apply k_forsome; intros i Hi; [apply ok_if, ok_mark_ext; eapply wg_fargs; eauto|].
      apply keeps_if. intros t HWt HJt _ t' b' E'. eapply k_mark_ext; eauto; [eapply wg_fargs; eauto|]. eapply escaped_function_params; eauto.
    - apply k_forsome; intros i Hi; [apply ok_if, ok_mark_pe; eapply wg_fresults; eauto|].
      apply keeps_if. intros t HWt HJt _ t' b' E'. eapply k_mark_pe; eauto; [eapply wg_fresults; eauto|]. eapply escaped_function_results; eauto.
  Qed.
  Lemma k_naive_round s s' b : (forall c, c ∈ cs -> cstr_in (npo s0) c) -> W s -> J s -> naive_round ord G cs s = Some (s', b) -> J s'.
  Proof using HT WG ord_perm.
    intros HC HW HJ E. unfold naive_round in E. destruct (forop cs (apply ord G) s) as [s1 b1] eqn:E1.
    assert (O1 : op_ok (forop cs (apply ord G))) by (apply ok_for; intros; apply ok_apply; auto).
    destruct (O1 _ _ _ HW E1) as (W1 & _).
    assert (J1 : J s1). { eapply (keeps_for s0 J cs (apply ord G)); [| | | |exact E1]; auto; intros; [apply ok_apply; auto|apply k_apply; auto]. }
    destruct (escape_flags_ok ord ord_perm s0 s1 W1) as (s2 & b2 & E2 & W2 & _). rewrite E2 in E. cbn in E.
    assert (J2 : J s2) by (exact (k_escape_flags s1 s2 b2 W1 J1 E2)).
    destruct (escaped_functions G s2) as [s3 b3] eqn:E3. injection E as <- <-. exact (k_escaped_functions s2 s3 b3 W2 J2 E3).
  Qed.
  Lemma J_init : wf s0 -> J s0.
  Proof using HT.
    intros Wf. pose proof (so_init _ _ _ _ HT) as [I1 I2 I3 I4]. cbn in *. split.
    - intros i y Hi Hy. apply I1; auto. apply pointing_iff. auto.
    - intros i Hi Hx. apply I2; auto. apply ext_iff; auto.
    - intros y Hy. apply I3; [apply (wf_flags s0 Wf); auto|]. apply esc_iff; auto.
    - intros i Hi Hx. apply I4; auto. apply pe_iff; auto.
  Qed.
  Lemma J_at_most s : W s -> J s -> at_most (npo s0) (observe s) T.
  Proof using HT.
    intros HW []. split; cbn.
    - intros x y Hx. rewrite pointing_iff. intros [[A B]|A]; auto. apply (external_points_to_escaped _ _ _ (so_rules _ _ _ _ HT)); auto.
    - intros x Hx. rewrite ext_iff. auto.
    - intros x Hx. rewrite esc_iff. auto.
    - intros x Hx. rewrite pe_iff. auto.
  Qed.
End Least.

Section Main.
  Context (ord : forall A : Type, nat -> list A -> list A) (ord_perm : forall A k (l : list A), ord A k l ≡ₚ l).
  Context (s0 : pos) (G : prog) (WG : wf_prog (npo s0) (kindof s0) G) (cs : list cstr) (HC : forall c, c ∈ cs -> cstr_in (npo s0) c).

  Lemma naive_total : forall fuel s, W s0 s -> 3 * npo s0 + npo s0 * npo s0 < fuel + mu s ->
    exists s' k, solve_naively ord G fuel cs s = Some (s', k).
  Proof using ord_perm WG HC.
    induction fuel as [|fuel IH]; intros s HW Hf.
    { pose proof (mu_bound s (proj1 HW)) as B. rewrite (W_npo s0 s HW) in B. lia. }
    cbn [solve_naively]. destruct (naive_round_ok ord ord_perm s0 G WG cs s HC HW) as (s1 & b & E & W1 & L & T & F). rewrite E. cbn.
    destruct b; [|eauto]. specialize (T eq_refl). destruct (IH s1 W1) as (s2 & k & E2); [lia|]. rewrite E2. cbn. eauto.
  Qed.
  Lemma naive_result : forall fuel s s' k, W s0 s -> le s0 s -> solve_naively ord G fuel cs s = Some (s', k) ->
    W s0 s' /\ le s0 s' /\ closed G s' /\ (forall c, c ∈ cs -> cl_cstr G s' c) /\ forall T, solution G s0 cs T -> J s0 T s -> J s0 T s'.
  Proof using ord_perm WG HC.
    induction fuel as [|fuel IH]; intros s s' k HW HL E; cbn [solve_naively] in E; [discriminate|].
    destruct (naive_round_ok ord ord_perm s0 G WG cs s HC HW) as (s1 & b & E1 & W1 & L & T & F). rewrite E1 in E. cbn in E.
    assert (L1 : le s0 s1) by (eapply le_trans; eauto).
    destruct b.
    - destruct (solve_naively ord G fuel cs s1) as [[s2 k2]|] eqn:E2; cbn in E; [|discriminate]. injection E as <- <-.
      destruct (IH _ _ _ W1 L1 E2) as (A & B & C & D & M). do 4 (split; [assumption|]). intros U HU HJ. apply M; auto.
      exact (k_naive_round ord ord_perm s0 G WG cs U HU s s1 true HC HW HJ E1).
    - injection E as <- <-. destruct (F eq_refl) as [C D]. do 4 (split; [assumption|]). intros U HU HJ.
      exact (k_naive_round ord ord_perm s0 G WG cs U HU s s1 false HC HW HJ E1).
  Qed.
  Lemma naive_least fuel s' k : wf s0 -> solve_naively ord G fuel cs s0 = Some (s', k) -> least_solution G s0 cs (observe s').
  Proof using ord_perm WG HC.
    intros Wf E. assert (HW : W s0 s0) by (split; auto using static_refl).
    destruct (naive_result fuel s0 s' k HW (le_refl s0) E) as (W' & L & C & D & M).
    assert (N : npo s' = npo s0) by (apply W_npo; auto). assert (K : kindof s' = kindof s0) by (apply W_kind; auto).
    split.
    - apply closed_solution; auto; rewrite ?N, ?K; auto. apply W'.
    - intros U HU. eapply J_at_most; eauto. apply M; auto. eapply J_init; eauto.
  Qed.
End Main.
