(** Common node elimination on modules without loops: it succeeds, and computes what is used once. *)
From stdpp Require Import base list list_numbers fin_sets gmap.
From Verif.Rvsdg Require Import Model Spec Sem Wf WfFacts Args Divert Local Run Refine.
From Verif.Dne Require Import Model ProofsShrink ProofsMain.
From Verif.Ivr Require Import Model ProofsMain.
From Verif.Cne Require Import Model Spec ProofsSem ProofsState ProofsPart Just JustView Pre ProofsSimple ProofsOuts ProofsSubs ProofsMain ProofsFresh TotalSimple TotalOuts TotalMain Properties.

Lemma nsubs_dnode s n : nsubs (dnode s n) = map (dregion s) (nsubs n).
Proof. by destruct n. Qed.
Lemma vis_dregion s t r' : visited_region (dregion s t) r' -> exists r, visited_region t r /\ r' = dregion s r.
Proof.
  induction 1 as [|r' n' q Hr IH Hn Hk Hq]; [exists t; split; [constructor | done]|]. destruct IH as (r & Hr' & ->). rewrite rnodes_dregion in Hn. apply elem_of_list_In, in_map_iff in Hn as (n & <- & Hn%elem_of_list_In).
  rewrite nkind_dnode in Hk. rewrite nsubs_dnode in Hq. apply elem_of_list_In, in_map_iff in Hq as (p & <- & Hp%elem_of_list_In). exists p. split; [by eapply vis_sub | done].
Qed.
Lemma reg_dregion s t r' : reg (dregion s t) r' -> exists r, reg t r /\ r' = dregion s r.
Proof.
  induction 1 as [|r' n' q Hr IH Hn Hq]; [exists t; split; [constructor | done]|]. destruct IH as (r & Hr' & ->). rewrite rnodes_dregion in Hn. apply elem_of_list_In, in_map_iff in Hn as (n & <- & Hn%elem_of_list_In).
  rewrite nsubs_dnode in Hq. apply elem_of_list_In, in_map_iff in Hq as (p & <- & Hp%elem_of_list_In). exists p. split; [by eapply reg_sub | done].
Qed.
Lemma used_dregion s t o : used (dregion s t) o -> exists z, o = s z.
Proof.
  intros (r' & Hr & Hu). apply reg_dregion in Hr as (r & Hr & ->). destruct Hu as [Hu|(n' & Hn & Hu)].
  - rewrite rres_dregion in Hu. apply elem_of_list_fmap in Hu as (z & -> & _). by exists z.
  - rewrite rnodes_dregion in Hn. apply elem_of_list_In, in_map_iff in Hn as (n & <- & _). rewrite nins_dnode in Hu. apply elem_of_list_fmap in Hu as (z & -> & _). by exists z.
Qed.
Lemma enters_origin s n q i x : enters (dnode s n) (dregion s q) i x -> exists z, arg_origin (nkind n) (nins n) q i = Some z /\ x = s z.
Proof.
  intros H. destruct n as [id k ins outs subs]. cbn [nkind nins]. destruct H as [j Hk Hi Hx|Hk Hx|m j Hk Hi Hx|j Hk Hi Hx]; rewrite nkind_dnode in Hk; cbn [nkind] in Hk; subst k; rewrite nins_dnode in Hx; cbn [nins] in Hx; rewrite list_lookup_fmap in Hx; apply fmap_Some in Hx as (z & Hx & ->); exists z; (split; [|done]); cbn [arg_origin].
  - by subst i.
  - done.
  - subst i. rewrite decide_False by lia. by replace (m + j - m) with j by lia.
  - rewrite rres_dregion, fmap_length in Hi. subst i. rewrite decide_False by lia. by replace (length (rres q) + j - length (rres q)) with j by lia.
Qed.
Lemma once_dregion s t : wf_region t -> (forall x, s (s x) = s x) -> leaders_first s t -> comp s t -> computed_once (dregion s t).
Proof.
  intros Hwt Hid Hlf Hc. assert (Hus : forall o, used (dregion s t) o -> s o = o) by (intros o (z & ->)%used_dregion; done).
  assert (Hnode : forall r' n', visited_region (dregion s t) r' -> n' ∈ rnodes r' -> exists r n, visited_region t r /\ n ∈ rnodes r /\ n' = dnode s n /\ cnode s n).
  { intros r' n' Hv Hn. apply vis_dregion in Hv as (r & Hv & ->). rewrite rnodes_dregion in Hn. apply elem_of_list_In, in_map_iff in Hn as (n & <- & Hn%elem_of_list_In). exists r, n. split; [done|]. split; [done|]. split; [done|]. by apply (Hc r Hv). }
  split.
  - intros r' m' n' i x y Hv Hm Hn Hs Hk Hi Hx Hy Hux Huy. apply vis_dregion in Hv as (r & Hv & ->). rewrite rnodes_dregion in Hm, Hn. apply elem_of_list_In, in_map_iff in Hm as (m & <- & Hm%elem_of_list_In). apply elem_of_list_In, in_map_iff in Hn as (n & <- & Hn%elem_of_list_In).
    rewrite !nkind_dnode in *. rewrite !nins_dnode in Hi. rewrite nouts_dnode in Hx, Hy. assert (Hms : is_simple m = true) by (unfold is_simple; rewrite Hk; destruct Hs as [op [-> | ->]]; done).
    pose proof (proj1 (Hc r Hv) m n Hm Hn Hms Hk Hi) as He. rewrite <-(Hus x Hux), <-(Hus y Huy). assert (Hl : (s <$> nouts m) !! i = (s <$> nouts n) !! i) by (by rewrite He). rewrite !list_lookup_fmap, Hx, Hy in Hl. by injection Hl.
  - intros r' n' q' i j a b x Hv Hn Hk Hq Ha Hb Hea Heb Hua Hub. destruct (Hnode r' n' Hv Hn) as (r & n & Hvr & Hnr & -> & Hcn). rewrite nkind_dnode in Hk. rewrite nsubs_dnode in Hq. apply elem_of_list_In, in_map_iff in Hq as (q & <- & Hq%elem_of_list_In). rewrite rargs_dregion in Ha, Hb.
    destruct (enters_origin _ _ _ _ _ Hea) as (z1 & E1 & ->), (enters_origin _ _ _ _ _ Heb) as (z2 & E2 & Hz). rewrite <-(Hus a Hua), <-(Hus b Hub). eapply (proj1 (Hcn Hk)); eauto.
  - intros r' n' i j x y Hv Hn Hk Hx Hy Hsame Hnon Hux Huy. destruct (Hnode r' n' Hv Hn) as (r & n & Hvr & Hnr & -> & Hcn). rewrite nkind_dnode in Hk. rewrite nsubs_dnode in Hsame, Hnon. rewrite nouts_dnode in Hx, Hy.
    assert (Hq : forall q, q ∈ nsubs n -> dregion s q ∈ map (dregion s) (nsubs n)) by (intros q Hq; apply elem_of_list_In, in_map, elem_of_list_In; done).
    assert (Hnk : forall k, (forall q, q ∈ nsubs n -> s <$> (rres q !! i) = s <$> (rres q !! k)) -> nonarg (nsubs n) k).
    { intros k Hki. destruct Hnon as (q' & z & Hq' & Hz & Hza). apply elem_of_list_In, in_map_iff in Hq' as (q & <- & Hqn%elem_of_list_In). rewrite rres_dregion, list_lookup_fmap, (Hki q Hqn) in Hz. rewrite rargs_dregion in Hza. destruct (rres q !! k) as [w|] eqn:Ew; cbn in Hz; [|done]. injection Hz as <-.
      exists q, w. split; [done|]. split; [done|]. intros Hw. apply Hza. refine (proj1 (Hlf q _) w Hw). apply vis_reg. eapply vis_sub; [exact Hvr | exact Hnr | by rewrite Hk | done]. }
    assert (Hij : forall q, q ∈ nsubs n -> s <$> (rres q !! i) = s <$> (rres q !! j)). { intros q Hqn. pose proof (Hsame _ (Hq q Hqn)) as He. by rewrite rres_dregion, !list_lookup_fmap in He. }
    pose proof (Hnk i (fun q _ => eq_refl)) as Hni. pose proof (Hnk j Hij) as Hnj. rewrite <-(Hus x Hux), <-(Hus y Huy).
    assert (Hkd : nkind n <> Delta) by (by rewrite Hk). refine (proj2 (Hcn Hkd) Hk i j x y Hx Hy _ Hni Hnj). intros q Hqn. specialize (Hij q Hqn).
    assert (Hwn : wf_node n) by (pose proof (reg_wf _ _ Hwt (vis_reg _ _ Hvr)) as Hwr; destruct r as [args res ns]; destruct Hwr as [Hwl _]; apply wf_list_Forall in Hwl; rewrite Forall_forall in Hwl; by apply Hwl).
    destruct n as [id k ins outs subs]. cbn [nkind nsubs nouts] in *. subst k. apply wf_node_unfold in Hwn as [[_ Hsh] _]. rewrite Forall_forall in Hsh. destruct (Hsh q Hqn) as [_ Hl].
    destruct (lookup_lt_is_Some_2 (rres q) i) as [u Hu]; [rewrite Hl; by eapply lookup_lt_Some|]. destruct (lookup_lt_is_Some_2 (rres q) j) as [v Hv']; [rewrite Hl; by eapply lookup_lt_Some|]. exists u, v. split; [done|]. split; [done|]. rewrite Hu, Hv' in Hij. by injection Hij.
Qed.

Section Total.
  Context (choose : cstate -> list nat -> option nat) (Hch : forall σ l, match choose σ l with Some x => x ∈ l | None => l = [] end).
  Lemma mark_total t : wf t -> theta_free t -> op_outputs t -> content_free t -> exists σ, mark choose t = Some σ /\ comp (lead σ) t.
  Proof using Hch.
    intros Hw Ht Ho Hc. destruct (mark_start t Hw) as (H1 & _ & H3 & H4). destruct (proj2 (total_ok choose Hch) t (proj1 (wf_good t) Hw) Ht Ho Hc _ H1 H3) as (σ' & E & _ & H5); [intros a Ha; by apply H4|]. by exists σ'.
  Qed.
  (** C41: on a module without loops in which no branch has its match content as a result, common node elimination succeeds *)
  Theorem cne_theta_free_total t : wf t -> theta_free t -> op_outputs t -> content_free t -> exists t', cne choose t = Some t'.
  Proof using Hch. intros Hw Ht Ho Hc. destruct (mark_total t Hw Ht Ho Hc) as (σ & E & _). unfold cne. rewrite E. by eexists. Qed.
  (** C41: and afterwards what is used is computed once *)
  Theorem cne_theta_free_complete_partial t t' : wf t -> theta_free t -> op_outputs t -> content_free t -> cne choose t = Some t' -> computed_once t'.
  Proof using Hch.
    intros Hw Ht Ho Hc H. destruct (mark_total t Hw Ht Ho Hc) as (σ & E & HC). unfold cne in H. rewrite E in H. injection H as <-. destruct (mark_spec choose (Hch1 choose Hch) t σ Hw E) as (H1 & _).
    apply once_dregion; [apply Hw | intros x; by apply lead_idem | by apply (cne_leaders_first_theta_free choose (Hch1 choose Hch)) | done].
  Qed.
End Total.

Module TotalExample.
  Import CneExample.
  Lemma prog_regs r : reg prog r -> r = prog \/ r = fn \/ r = branch 100 \/ r = branch 200.
  Proof.
    intros Hr. induction Hr as [|r n r' Hr IH Hn Hr']; [by left|].
    destruct IH as [->|[->|[->| ->]]]; cbn in Hn; repeat (apply elem_of_cons in Hn as [->|Hn]; [cbn in Hr'; repeat (apply elem_of_cons in Hr' as [->|Hr']; [tauto|]); by apply elem_of_nil in Hr'|]); by apply elem_of_nil in Hn.
  Qed.
  Example total_example : wf prog /\ theta_free prog /\ op_outputs prog /\ content_free prog /\ (forall σ l, match (fun _ : cstate => @head nat) σ l with Some x => x ∈ l | None => l = [] end).
  Proof.
    split; [exact prog_wf|]. split; [exact prog_free|]. split; [|split].
    - intros r m n Hr Hm Hn Hk _ _. destruct (prog_regs r Hr) as [->|[->|[->| ->]]]; cbn in Hm, Hn;
      repeat (apply elem_of_cons in Hm as [->|Hm]; [repeat (apply elem_of_cons in Hn as [->|Hn]; [done|]); by apply elem_of_nil in Hn|]); by apply elem_of_nil in Hm.
    - intros r n q Hr Hn Hk Hq c Hc Hin. destruct (prog_regs r Hr) as [->|[->|[->| ->]]]; cbn in Hn;
      repeat (apply elem_of_cons in Hn as [->|Hn]; [try done; cbn in Hq; repeat (apply elem_of_cons in Hq as [->|Hq]; [cbn in Hc; injection Hc as <-; cbn in Hin; repeat (apply elem_of_cons in Hin as [?|Hin]; [done|]); by apply elem_of_nil in Hin|]); by apply elem_of_nil in Hq|]); by apply elem_of_nil in Hn.
    - intros σ [|x l]; [done | left].
  Qed.
End TotalExample.

(** a gamma node that passes its match content on *)
Module ContentCrash.
  Definition prog : region := Region [1] [20] [Node 10 Gamma [1] [20] [Region [100] [100] []; Region [200] [200] []]].
  Lemma prog_wf : wf prog.
  Proof.
    split; [|split; apply (bool_decide_unpack _); vm_compute; exact I].
    cbn; repeat match goal with
    | |- _ /\ _ => split
    | |- Forall _ _ => constructor
    | |- _ ∈ _ => apply (bool_decide_unpack _); vm_compute; exact I
    | |- True => exact I
    | |- _ => first [reflexivity | discriminate]
    end.
  Qed.
End ContentCrash.
(** C41: without the condition on match contents, the pass dereferences a null pointer (CommonNodeElimination.cpp:705) *)
Theorem cne_content_crash : wf ContentCrash.prog /\ theta_free ContentCrash.prog /\ op_outputs ContentCrash.prog /\ forall choose, cne choose ContentCrash.prog = None.
Proof.
  split; [exact ContentCrash.prog_wf|]. split; [|split].
  - intros r n Hr Hn. assert (H : r = ContentCrash.prog \/ rnodes r = []).
    { clear Hn n. induction Hr as [|r n r' Hr IH Hn Hr']; [by left|]. right. destruct IH as [-> | IH]; [|rewrite IH in Hn; by apply elem_of_nil in Hn]. cbn in Hn. apply elem_of_list_singleton in Hn as ->. cbn in Hr'. repeat (apply elem_of_cons in Hr' as [->|Hr']; [done|]). by apply elem_of_nil in Hr'. }
    destruct H as [-> | H]; [|rewrite H in Hn; by apply elem_of_nil in Hn]. cbn in Hn. by apply elem_of_list_singleton in Hn as ->.
  - intros r m n Hr Hm Hn. assert (H : r = ContentCrash.prog \/ rnodes r = []).
    { clear Hn n Hm m. induction Hr as [|r n r' Hr IH Hn Hr']; [by left|]. right. destruct IH as [-> | IH]; [|rewrite IH in Hn; by apply elem_of_nil in Hn]. cbn in Hn. apply elem_of_list_singleton in Hn as ->. cbn in Hr'. repeat (apply elem_of_cons in Hr' as [->|Hr']; [done|]). by apply elem_of_nil in Hr'. }
    destruct H as [-> | H]; [|rewrite H in Hn; by apply elem_of_nil in Hn]. cbn in Hm, Hn. apply elem_of_list_singleton in Hm as ->. by apply elem_of_list_singleton in Hn as ->.
  - intros choose. vm_compute. reflexivity.
Qed.
