(** Tracing: where it stops. *)
From stdpp Require Import base list list_numbers fin_sets gmap.
From Verif.Rvsdg Require Import Model Spec Sem Wf WfFacts Det Sim Local Args Refine Chase.
From Verif.Trace Require Import Model Spec ProofsOwners ProofsOrder ProofsThrough ProofsStep ProofsMain ProofsCache.

Section Stops.
  Context (cfg : config) (t : region) (Hwf : wf t) (Hc : caching cfg = false).
  Local Notation Hnd := (Hnd t Hwf).
  Lemma arg_owner x n b s i : is_argument t x n b s i -> exists r, owner_of t x = Some (ArgumentOf r n b s i) /\ reg t r /\ n ∈ rnodes r /\ nsubs n !! b = Some s /\ rargs s !! i = Some x.
  Proof using Hwf. clear Hc. intros (r & Hr & H1 & H2 & H3). apply reg_region_of in Hr. exists r. split; [|done]. apply (owner_of_iff t Hnd). done. Qed.
  Lemma out_owner x n k : is_output t x n k -> exists r, owner_of t x = Some (OutputOf r n k) /\ reg t r /\ n ∈ rnodes r /\ nouts n !! k = Some x.
  Proof using Hwf. clear Hc. intros (r & Hr & H1 & H2). apply reg_region_of in Hr. exists r. split; [|done]. apply (owner_of_iff t Hnd). done. Qed.
  (** the argument of a region that is not left *)
  Lemma stay F n b s i a c y : is_argument t a n b s i -> trace_fuel cfg t F (Some (nid n, b)) a c = Done y -> y = (a, c).
  Proof using Hwf.
    clear Hc. intros (r & Ho & _)%arg_owner. destruct F as [|F]; [done|]. cbn [trace_fuel]. unfold trace_step, base_step. rewrite Ho, decide_True by done. cbn [obind]. rewrite Ho. destruct (llvm cfg); cbn [obind]; rewrite decide_True by done; by intros [= <-].
  Qed.
  Lemma stay' F n b s i a c y : is_argument t a n b s i -> (if deep cfg then trace_fuel cfg t F (Some (nid n, b)) a c else Done (a, c)) = y -> y = Done (a, c) \/ y = Fuel.
  Proof using Hwf.
    clear Hc. intros Ha <-. destruct (deep cfg); [|by left]. destruct F as [|F]; [by right|]. apply arg_owner in Ha as (r & Ho & _). left. cbn [trace_fuel]. unfold trace_step, base_step. rewrite Ho, decide_True by done. cbn [obind]. rewrite Ho. destruct (llvm cfg); cbn [obind]; by rewrite decide_True.
  Qed.
  Lemma invariant_gives F n k o c s a x : (exists r, reg t r /\ n ∈ rnodes r) -> nsubs n = [s] -> rres s !! S k = Some a -> rargs s !! k = Some a -> nins n !! k = Some x ->
    try_theta cfg t (trace_fuel cfg t F) n k o c = Done (Some x, c) \/ try_theta cfg t (trace_fuel cfg t F) n k o c = Fuel.
  Proof using Hwf Hc.
    intros (r & Hr & Hn) Hs Hq Ha Hx. unfold try_theta, lookup_in_cache, insert_in_cache. rewrite Hc, Hs. cbn [list_lookup lookup]. change (list_lookup (S k) (rres s)) with (rres s !! S k). rewrite Hq, Ha, Hx.
    destruct (stay' F n 0 s k a c _ ltac:(exists r; rewrite Hs; split; [by apply reg_region_of | done]) eq_refl) as [-> | ->]; cbn [obind]; [|by right]. rewrite decide_True by done. by left.
  Qed.
  Lemma branches_give F r n k y c : reg t r -> n ∈ rnodes r -> forall subs b common, (forall j s, subs !! j = Some s -> nsubs n !! (b + j) = Some s) -> subs <> [] \/ common = Some y -> common = None \/ common = Some y ->
    (forall s, s ∈ subs -> exists a i, rres s !! k = Some a /\ rargs s !! S i = Some a /\ nins n !! S i = Some y) ->
    gamma_branches cfg t (trace_fuel cfg t F) n k b subs common c = Done (Some y, c) \/ gamma_branches cfg t (trace_fuel cfg t F) n k b subs common c = Fuel.
  Proof using Hwf.
    clear Hc. intros Hr Hn. induction subs as [|s subs IH]; intros b common Hat Hne Hcom Hall; cbn [gamma_branches].
    - destruct Hne as [?| ->]; [done|]. by left.
    - destruct (Hall s ltac:(left)) as (a & i & Hq & Ha & Hx). rewrite Hq. pose proof (Hat 0 s eq_refl) as Hs. rewrite Nat.add_0_r in Hs.
      assert (Harg : is_argument t a n b s (S i)). { exists r. split; [by apply reg_region_of | done]. }
      destruct (stay' F n b s (S i) a c _ Harg eq_refl) as [-> | ->]; cbn [obind]; [|by right]. destruct (arg_owner _ _ _ _ _ Harg) as (r' & -> & _). rewrite decide_True by done. cbn [map_branch_argument]. rewrite Hx. cbn [obind].
      assert (Hgo : gamma_branches cfg t (trace_fuel cfg t F) n k (S b) subs (Some y) c = Done (Some y, c) \/ gamma_branches cfg t (trace_fuel cfg t F) n k (S b) subs (Some y) c = Fuel).
      { apply IH; [|by right|by right|]. - intros j s' Hj. replace (S b + j) with (b + S j) by lia. by apply Hat. - intros s' Hs'. apply Hall. by right. }
      destruct Hcom as [-> | ->]; [done|]. by rewrite decide_True.
  Qed.
  Lemma llvm_rank y c x c' : llvm_part cfg t y c = Done (x, c') -> rank t x <= rank t y.
  Proof using Hwf.
    clear Hc. unfold llvm_part. destruct (llvm cfg); [|by intros [= -> ->]]. destruct (owner_of t y) as [[r n k|r n b s i|]|] eqn:Eo; try by intros [= -> ->]. apply (owner_of_iff t Hnd) in Eo as (Hr & Hn & Hk).
    assert (Hin : forall j z, nins n !! j = Some z -> rank t z <= rank t y).
    { intros j z Hz. apply Nat.lt_le_incl. apply (rank_in t (Hw t Hwf) Hnd r n z y Hr Hn); [by eapply elem_of_list_lookup_2 | apply out_norder; by eapply elem_of_list_lookup_2]. }
    destruct (nkind n); try by intros [= -> ->].
    - destruct (barrier cfg op); [|by intros [= -> ->]]. destruct (nins n !! 0) eqn:E; [|done]. intros [= -> ->]. by apply (Hin 0).
    - destruct (_ && _); [|by intros [= -> ->]]. destruct (nins n !! k) eqn:E; [|done]. intros [= -> ->]. by apply (Hin k).
  Qed.
  Local Notation passes_on := (passes_on t (interproc cfg) (enter_phi cfg) (llvm cfg) (loaded cfg) (barrier cfg)).
  Lemma in_rank r n x y j : reg t r -> n ∈ rnodes r -> nins n !! j = Some y -> x ∈ norder n -> rank t y < rank t x.
  Proof using Hwf. clear Hc. intros Hr Hn Hj Hx. apply (rank_in t (Hw t Hwf) Hnd r n y x Hr Hn); [by eapply elem_of_list_lookup_2 | done]. Qed.
  Lemma arg_in n b s i x : nsubs n !! b = Some s -> rargs s !! i = Some x -> x ∈ norder n.
  Proof using. clear. intros Hb Hi. eapply sub_norder; [by eapply elem_of_list_lookup_2 | apply elem_of_app; left; by eapply elem_of_list_lookup_2]. Qed.
  Lemma out_in n k x : nouts n !! k = Some x -> x ∈ norder n.
  Proof using. clear. intros Hk. apply out_norder. by eapply elem_of_list_lookup_2. Qed.
  Lemma po_rank w x y : passes_on w x y -> rank t y < rank t x.
  Proof using Hwf.
    clear Hc. intros [n b s i Ha Hw' Hk Hy|n b s i Ha Hw' Hk Hy Hq|n b s i m Ha Hw' Hk Hy Hi|n b s i Ha Hw' Hk Hy Hi|n b s i Ha Hw' Hk Hy Hi|n k Ho Hk Hne Hall|n k s a Ho Hk Hs Hq Ha Hy|n k s Ho Hk Hs Hy Hi Hp|n k op Ho Hk Hb Hy Hl|n k op Ho Hk Hy Hl Hld].
    1-5: destruct (arg_owner _ _ _ _ _ Ha) as (r & _ & Hr & Hn & Hs & Hi'); eapply in_rank; [exact Hr | exact Hn | exact Hy | by eapply arg_in].
    all: destruct (out_owner _ _ _ Ho) as (r & _ & Hr & Hn & Ho').
    - destruct (nsubs n) as [|s l]; [done|]. destruct (Hall s ltac:(left)) as (a & i & _ & _ & Hy). eapply in_rank; [exact Hr | exact Hn | exact Hy | by eapply out_in].
    - eapply in_rank; [exact Hr | exact Hn | exact Hy | by eapply out_in].
    - assert (reg t s) by (eapply reg_sub; [exact Hr | exact Hn | rewrite Hs; left]). eapply (rank_sub t Hnd r n s); [done | done | rewrite Hs; left | apply (res_rorder t (Hw t Hwf)); [done|]; by eapply elem_of_list_lookup_2 | by eapply elem_of_list_lookup_2].
    - eapply in_rank; [exact Hr | exact Hn | exact Hy | by eapply out_in].
    - eapply in_rank; [exact Hr | exact Hn | exact Hy | by eapply out_in].
  Qed.
  Lemma theta_single r n s b : reg t r -> n ∈ rnodes r -> nkind n = Theta -> nsubs n !! b = Some s -> nsubs n = [s] /\ length (nins n) = length (nouts n).
  Proof using Hwf.
    clear Hc. intros Hr Hn Hk Hb. pose proof (wfn t (Hw t Hwf) r n Hr Hn) as Hwn. destruct n as [id kk ins outs sb]. cbn [nkind nsubs nins nouts] in *. subst kk. apply wf_node_unfold in Hwn as [(s' & -> & _ & H & _) _]. apply elem_of_list_lookup_2, elem_of_list_singleton in Hb as ->. done.
  Qed.
  Lemma phi_single r n s b : reg t r -> n ∈ rnodes r -> nkind n = Phi -> nsubs n !! b = Some s -> length (rres s) = length (nouts n).
  Proof using Hwf.
    clear Hc. intros Hr Hn Hk Hb. pose proof (wfn t (Hw t Hwf) r n Hr Hn) as Hwn. destruct n as [id kk ins outs sb]. cbn [nkind nsubs nins nouts] in *. subst kk. apply wf_node_unfold in Hwn as [(s' & -> & _ & H) _]. apply elem_of_list_lookup_2, elem_of_list_singleton in Hb as ->. done.
  Qed.
  Lemma step_stops F w x c c' y : trace_step cfg t (trace_fuel cfg t F) w x c = Done (x, c') -> ~ passes_on w x y.
  Proof using Hwf Hc.
    rewrite trace_step_eq. intros Hstep Hpo. pose proof (po_rank w x y Hpo) as Hlt.
    assert (Hb : base_step cfg t (trace_fuel cfg t F) w x c = Done (y, c) \/ base_step cfg t (trace_fuel cfg t F) w x c = Fuel \/ base_step cfg t (trace_fuel cfg t F) w x c = Failed \/
      (base_step cfg t (trace_fuel cfg t F) w x c = Done (x, c) /\ llvm_part cfg t x c = Done (y, c))).
    { unfold base_step. destruct Hpo as [n b s i Ha Hw' Hk Hy|n b s i Ha Hw' Hk Hy Hq|n b s i m Ha Hw' Hk Hy Hi|n b s i Ha Hw' Hk Hy Hi|n b s i Ha Hw' Hk Hy Hi|n k Ho Hk Hne Hall|n k s a Ho Hk Hs Hq Ha Hy|n k s Ho Hk Hs Hy Hi Hp|n k op Ho Hk Hb Hy Hl|n k op Ho Hk Hy Hl Hld].
      1-5: destruct (arg_owner _ _ _ _ _ Ha) as (r & -> & Hr & Hn & Hs & Hi'); rewrite decide_False by done; rewrite Hk.
      6-10: destruct (out_owner _ _ _ Ho) as (r & Hown & Hr & Hn & Ho'); rewrite ?Hown, Hk.
      - destruct i as [|i]; cbn [map_branch_argument obind]; [auto|]. rewrite Hy. by left.
      - destruct (theta_single r n s b Hr Hn Hk Hs) as [Hs' Hl]. destruct (lookup_lt_is_Some_2 (nouts n) i) as [out Hout]; [rewrite <-Hl; by eapply lookup_lt_Some|]. rewrite Hy, Hout.
        destruct (invariant_gives F n i out c s x y ltac:(eauto) Hs' Hq Hi' Hy) as [-> | ->]; cbn [obind]; [rewrite decide_True by done; by left | auto].
      - rewrite Hi. cbn [andb]. rewrite bool_decide_eq_true_2 by lia. replace (m + i - m) with i by lia. rewrite Hy. by left.
      - rewrite Hi, Hy. by left.
      - rewrite Hi. cbn [andb]. rewrite (phi_single r n s b Hr Hn Hk Hs). rewrite bool_decide_eq_true_2 by lia. replace (length (nouts n) + i - length (nouts n)) with i by lia. rewrite Hy. by left.
      - unfold try_gamma, lookup_in_cache, insert_in_cache. rewrite Hc. destruct (branches_give F r n k y c Hr Hn (nsubs n) 0 None ltac:(done) ltac:(by left) ltac:(by left) Hall) as [-> | ->]; cbn [obind or_else]; auto.
      - destruct (invariant_gives F n k x c s a y ltac:(eauto) Hs Hq Ha Hy) as [-> | ->]; cbn [obind or_else]; auto.
      - rewrite Hi, Hp, Hs, Hy. by left.
      - right. right. right. split; [done|]. unfold llvm_part. by rewrite Hl, Hown, Hk, Hb, Hy.
      - right. right. right. split; [done|]. unfold llvm_part. rewrite Hl, Hown, Hk, Hld. cbn [andb]. rewrite bool_decide_eq_true_2 by lia. by rewrite Hy. }
    destruct Hb as [Hb|[Hb|[Hb|[Hb Hl]]]]; rewrite Hb in Hstep; cbn [obind] in Hstep; [|done|done|].
    - apply llvm_rank in Hstep. lia.
    - rewrite Hstep in Hl. injection Hl as -> ->. lia.
  Qed.
End Stops.
