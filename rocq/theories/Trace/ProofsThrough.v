(** Values that pass through gammas, thetas, loads and barriers unchanged. *)
From stdpp Require Import base list list_numbers fin_sets gmap.
From Verif.Rvsdg Require Import Model Spec Sem Wf WfFacts Det Sim Local Args Refine Chase.
From Verif.Trace Require Import Model Spec ProofsOwners.

Section Through.
  Context {V : Type} (ctl : V -> option nat) (content : V -> V) (sem : nat -> list V -> option (list V)) (addr imp : nat -> V) (t : region).
  Local Notation eqn := (eqn ctl content sem addr imp).
  Local Notation ev := (ev ctl content sem addr imp).
  Context (Hw : wf_region t) (Hnd : NoDup (defs t).*1).
  (** whatever the values of the arguments *)
  Definition same (x y : oid) : Prop := forall e v, ev t e x v -> ev t e y v.
  Lemma same_refl x : same x x.
  Proof using. clear. by intros e v. Qed.
  Lemma same_trans x y z : same x y -> same y z -> same x z.
  Proof using. clear. intros H1 H2 e v H. by apply H2, H1. Qed.
  Lemma view_eqn e o w v : (o, w) ∈ defs t -> ev t e o v -> eqn (ev t) e o w v.
  Proof using Hnd. clear Hw. intros Ho (w' & Hw' & H)%ev_unfold. by assert (w' = w) as -> by (eapply defs_fun; eauto). Qed.
  Lemma emp_any e o v : ev t emp o v -> ev t e o v.
  Proof using. clear. apply ev_env_mono. done. Qed.

  Lemma gamma_through o p brs z : (o, VGamma p brs) ∈ defs t ->
    (forall b r c es, brs !! b = Some (r, c, es) -> exists a, same r a /\ (a, z) ∈ es) -> same o z.
  Proof using Hw Hnd.
    intros Ho Hr e v Hev. pose proof (view_eqn _ _ _ _ Ho Hev) as (pv & b & x & c & es & vs & Hpv & Hctl & Hb & Hes & Hx).
    pose proof (args_ok t o _ Hw Hnd Ho) as Hargs. pose proof (elem_of_list_lookup_2 _ _ _ Hb) as Hbin. destruct (Hargs _ _ _ Hbin) as [Hn Ha].
    destruct (Hr _ _ _ _ Hb) as (a & Hra & Hc). apply Hra in Hx.
    assert (Hq : (bind ((c, content pv) :: zip es.*1 vs)) a = Some v). { assert (Hd : (a, VGammaArg z) ∈ defs t) by (apply Ha; by right). exact (view_eqn _ _ _ _ Hd Hx). }
    rewrite bind_cons in Hq. apply NoDup_cons in Hn as [Hn1 Hn2].
    assert (Hxc : c <> a). { intros ->. apply Hn1. apply elem_of_fst. eauto. }
    rewrite decide_False in Hq by done. pose proof (Forall2_length _ _ _ Hes) as Hl. rewrite fmap_length in Hl. apply bind_lookup in Hq as (i & Hi & Hvi); [|done|by rewrite fmap_length].
    apply elem_of_list_lookup in Hc as [j Hj]. assert (i = j) as ->. { eapply NoDup_lookup; [exact Hn2 | exact Hi | by rewrite list_lookup_fmap, Hj]. }
    destruct (Forall2_lookup_r _ _ _ _ _ Hes Hvi) as (z' & Hz' & HRz). rewrite list_lookup_fmap, Hj in Hz'. cbn in Hz'. by injection Hz' as <-.
  Qed.
  Lemma theta_through o p q x lvs a z y : (o, VTheta p q x lvs) ∈ defs t -> (a, z, y) ∈ lvs -> same y a -> same q a -> same o z.
  Proof using Hw Hnd.
    intros Ho Hin Hy Hq e v Hev. pose proof (view_eqn _ _ _ _ Ho Hev) as (vs & Hv & HL). destruct (args_ok t o _ Hw Hnd Ho) as (Hn & Ha & _). destruct (Ha _ _ _ Hin) as [out Hout].
    apply elem_of_list_lookup in Hin as [i Hi]. pose proof (Forall2_length _ _ _ Hv) as Hl. rewrite !fmap_length in Hl.
    assert (Hvi : vs !! i = Some v).
    { clear Hv. revert Hl.
      assert (Hb : forall (vs : list V) u q, same q a -> length lvs = length vs -> ev t (bind (zip lvs.*1.*1 vs)) q u -> vs !! i = Some u).
      { intros us u q' Hq' Hlu Hu. apply Hq' in Hu. pose proof (view_eqn _ _ _ _ Hout Hu) as Hu'. cbn [Spec.eqn] in Hu'. apply bind_lookup in Hu' as (j & Hj & Hvj); [|done|by rewrite !fmap_length].
        assert (j = i) as ->; [|done]. eapply NoDup_lookup; [exact Hn | exact Hj|]. by rewrite !list_lookup_fmap, Hi. }
      induction HL as [vs pv v H1 H2 H3 | vs pv ws v H1 H2 H3 H4 IH]; intros Hl.
      - by apply (Hb _ _ q).
      - assert (Hlw : length lvs = length ws) by (rewrite <-(Forall2_length _ _ _ H3); by rewrite fmap_length). specialize (IH Hev Hlw).
        destruct (Forall2_lookup_r _ _ _ _ _ H3 IH) as (y' & Hy' & HRy). rewrite list_lookup_fmap, Hi in Hy'. cbn in Hy'. injection Hy' as <-. by apply (Hb _ _ y). }
    destruct (Forall2_lookup_r _ _ _ _ _ Hv Hvi) as (z' & Hz' & HRz). rewrite !list_lookup_fmap, Hi in Hz'. cbn in Hz'. by injection Hz' as <-.
  Qed.

  (** the same, for the nodes of the module *)
  Context (r : region) (n : node) (Hr : reg t r) (Hn : n ∈ rnodes r).
  Lemma wfn : wf_node n.
  Proof using Hw Hr Hn. eapply wf_region_node; [|exact Hn]. by eapply reg_wf. Qed.
  Lemma gamma_node k o z : nkind n = Gamma -> nouts n !! k = Some o ->
    (forall s, s ∈ nsubs n -> exists q a i, rres s !! k = Some q /\ same q a /\ rargs s !! S i = Some a /\ nins n !! S i = Some z) -> same o z.
  Proof using Hw Hnd Hr Hn.
    intros Hk Ho H. pose proof (node_out_def t r n k o Hr Hn Ho) as Hd. rewrite Hk in Hd. cbn [out_view] in Hd. eapply gamma_through; [exact Hd|].
    intros b x c es Hb. rewrite list_lookup_fmap in Hb. destruct (nsubs n !! b) as [s|] eqn:Es; [|done]. cbn in Hb. unfold gamma_branch in Hb. injection Hb as <- <- <-.
    destruct (H s ltac:(by eapply elem_of_list_lookup_2)) as (q & a & i & Hq & Hs & Ha & Hz). exists a. rewrite (nth_elem _ _ _ _ Hq). split; [done|].
    apply elem_of_list_lookup. exists i. apply lookup_zip_with_Some. exists a, z. rewrite !lookup_tail. done.
  Qed.
  Lemma theta_node k o s j a z y q : nkind n = Theta -> nsubs n = [s] -> nouts n !! k = Some o -> rres s !! S k = Some q ->
    rargs s !! j = Some a -> nins n !! j = Some z -> rres s !! S j = Some y -> same y a -> same q a -> same o z.
  Proof using Hw Hnd Hr Hn.
    intros Hk Hs Ho Hq Ha Hz Hy Hya Hqa. pose proof (node_out_def t r n k o Hr Hn Ho) as Hd. rewrite Hk, Hs in Hd. cbn [out_view nth] in Hd. eapply theta_through; [exact Hd | | exact Hya|].
    - unfold loop_vars. apply elem_of_list_lookup. exists j. apply lookup_zip_with_Some. exists (a, z), y. split; [done|]. split; [apply lookup_zip_with_Some; eauto | by rewrite lookup_tail].
    - pose proof (nth_elem _ (S k) 0 _ Hq) as Hq'. destruct (rres s); cbn in *; by rewrite Hq'.
  Qed.
  Lemma ctx_node s i o x : s ∈ nsubs n -> rargs s !! i = Some o -> (exists m, nkind n = Lambda m /\ m <= i /\ nins n !! (i - m) = Some x) \/
    (nkind n = Delta /\ nins n !! i = Some x) \/ (nkind n = Phi /\ length (rres s) <= i /\ nins n !! (i - length (rres s)) = Some x) -> same o x /\ forall e e' v, ev t e o v -> ev t e' x v.
  Proof using Hnd Hr Hn.
    clear Hw. intros Hs Ha H. pose proof (node_arg_def t r n s i o Hr Hn Hs Ha) as Hd.
    assert (Hv : arg_view (nkind n) (nins n) (nouts n) s i = VCopy x).
    { destruct H as [(m & -> & Hm & Hx)|[(-> & Hx)|(-> & Hm & Hx)]]; cbn [arg_view]; [rewrite decide_False by lia | | rewrite decide_False by lia]; by rewrite (nth_elem _ _ _ _ Hx). }
    rewrite Hv in Hd. assert (G : forall e e' v, ev t e o v -> ev t e' x v). { intros e e' v Hev. pose proof (view_eqn _ _ _ _ Hd Hev) as He. cbn in He. by apply emp_any. }
    split; [|done]. intros e v Hev. by eapply G.
  Qed.
  Lemma phi_node s k o x : nkind n = Phi -> nsubs n = [s] -> nouts n !! k = Some o -> rres s !! k = Some x -> same o x /\ forall e e' v, ev t e o v -> ev t e' x v.
  Proof using Hnd Hr Hn.
    clear Hw. intros Hk Hs Ho Hx. pose proof (node_out_def t r n k o Hr Hn Ho) as Hd. rewrite Hk, Hs in Hd. cbn [out_view nth] in Hd. rewrite (nth_elem _ _ _ _ Hx) in Hd.
    assert (G : forall e e' v, ev t e o v -> ev t e' x v). { intros e e' v Hev. pose proof (view_eqn _ _ _ _ Hd Hev) as He. cbn in He. by apply emp_any. }
    split; [|done]. intros e v Hev. by eapply G.
  Qed.
  Lemma simple_node (load : bool) op k j o x : nkind n = (if load then Load op else Simple op) -> nouts n !! k = Some o -> nins n !! j = Some x ->
    (forall vs ws, sem op vs = Some ws -> ws !! k = vs !! j) -> same o x.
  Proof using Hnd Hr Hn.
    clear Hw. intros Hk Ho Hx Hp e v Hev. pose proof (node_out_def t r n k o Hr Hn Ho) as Hd. assert (Hd' : (o, VSimple (nid n) load op k (nins n)) ∈ defs t) by (rewrite Hk in Hd; by destruct load).
    pose proof (view_eqn _ _ _ _ Hd' Hev) as (vs & ws & H1 & H2 & H3). rewrite (Hp _ _ H2) in H3. destruct (Forall2_lookup_r _ _ _ _ _ H1 H3) as (y & Hy & Hyv). by assert (y = x) as <- by congruence.
  Qed.
End Through.
