(** Lambda, phi and delta nodes; all nodes. *)
From stdpp Require Import base list list_numbers fin_sets gmap relations.
From Verif.Rvsdg Require Import Model Spec Sem Wf WfFacts ListFacts.
From Verif.Dne Require Import Model Spec ProofsMark Rel ProofsList ProofsNode ProofsGamma ProofsTheta.

Lemma sweep_lambda_unfold c id n ins outs r : sweep_node c (Node id (Lambda n) ins outs [r]) =
  (r1 ← sweep_region c r (rres r); '(ins', r2) ← prune_inputs n ins r1; Some (Node id (Lambda n) ins' outs [r2])).
Proof. done. Qed.
Lemma sweep_phi_unfold c id ins outs r : sweep_node c (Node id Phi ins outs [r]) =
  let dead i := negb (alive_out c (nth i outs 0)) && negb (alive_out c (nth i (rargs r) 0)) in
  let nfix := length (rres r) in
  r1 ← sweep_region c r (redirect dead (rargs r) (rres r));
  '(ins', r2) ← prune_inputs nfix ins r1;
  r3 ← remove_arguments (fun i => (i <? nfix) && dead i) (remove_results dead r2);
  Some (Node id Phi ins' (drop_at dead outs) [r3]).
Proof. done. Qed.
Lemma sweep_delta_unfold c id ins outs args res ns : sweep_node c (Node id Delta ins outs [Region args res ns]) =
  ('(ins', r2) ← prune_inputs 0 ins (Region args res (prune_list res ns)); Some (Node id Delta ins' outs [r2])).
Proof. done. Qed.

Section Node.
  Context (t : region) (c : ctx).
  Context (Hnd : NoDup (defs t).*1) (Hcl : closed t c).
  Context (Hkeys : forall o w x, (o, w) ∈ defs t -> x ∈ refs w -> x ∈ (defs t).*1).
  Local Notation liveo := (liveo t c).
  Local Notation byp := (byp t c).
  Local Notation rsl := (rsl t c).
  Local Notation vrel := (vrel t c).

  (** context variables are kept if their argument is used *)
  Definition dctx (C : list oid) (ns : list node) (res : list oid) (i : nat) : bool := negb (is_used (nth i C 0) ns res).
  Lemma ctx_kept_used (C : list oid) ns res i a : C !! i = Some a -> dctx C ns res i = false -> is_used a ns res = true.
  Proof using. clear. intros Hi. unfold dctx. rewrite (nth_elem _ _ _ _ Hi). by intros ?%negb_false_iff. Qed.
  Lemma ctx_shrink (C : list oid) ns res x : is_used x ns res = true -> x ∈ C -> x ∈ drop_at (dctx C ns res) C.
  Proof using. clear. intros Hu [i Hi]%elem_of_list_lookup. apply drop_at_elem. exists i. split; [done|]. unfold dctx. rewrite (nth_elem _ _ _ _ Hi), Hu. done. Qed.
  Lemma used_node x n ns res : n ∈ ns -> x ∈ nins n -> is_used x ns res = true.
  Proof using. clear. intros. apply is_used_iff. eauto. Qed.
  Lemma used_res x ns res : x ∈ res -> is_used x ns res = true.
  Proof using. clear. intros. apply is_used_iff. eauto. Qed.
  Lemma ctx_keep_live (A C ins : list oid) ns res (ex : list oid) : length C = length ins ->
    Forall (fun n => Forall liveo (nins n)) ns -> Forall (fun x => liveo x \/ x ∈ ex) res -> (forall x, x ∈ ex -> x ∉ C) ->
    (forall i a, C !! i = Some a -> (a, VCopy (nth i ins 0)) ∈ defs t) ->
    Forall liveo (drop_at (dctx C ns res) ins).
  Proof using Hnd Hcl Hkeys.
    intros Hlen Hl Hr Hex Hv. apply Forall_forall. intros x Hx. apply drop_at_elem in Hx as (i & Hi & Hp).
    destruct (lookup_lt_is_Some_2 C i) as [a Ha]. { rewrite Hlen. by eapply lookup_lt_Some. }
    pose proof (ctx_kept_used _ _ _ _ _ Ha Hp) as Hu. apply is_used_iff in Hu.
    assert (Hla : liveo a).
    { destruct Hu as [Hu|(n & Hn & Hu)].
      - rewrite Forall_forall in Hr. destruct (Hr a Hu) as [?|He]; [done|]. exfalso. apply (Hex a He). by eapply elem_of_list_lookup_2.
      - rewrite Forall_forall in Hl. specialize (Hl n Hn). rewrite Forall_forall in Hl. auto. }
    eapply live_next; [done | done | done | by apply (Hv i a) | done | done|]. cbn. rewrite (nth_elem _ _ _ _ Hi). left.
  Qed.

  Lemma lambda_step id n ins outs subs : Forall (NQ t c) subs -> NP t c (Node id (Lambda n) ins outs subs).
  Proof using Hnd Hcl Hkeys.
    intros IH Hw Hd Hn Hz Ha. pose proof Hw as [(r & Esubs & Hla & Hlo) Hwr]%wf_node_unfold. subst subs.
    rewrite Forall_singleton in IH, Hwr.
    destruct (sub_pre t c Hnd id (Lambda n) ins outs [r] r Hw Hd Hn Hz ltac:(left)) as (_ & Hd1 & Hn1 & Hav & Hb1 & Hz1). cbn [arg_view] in Hav.
    assert (Hout : forall i o, outs !! i = Some o -> (o, VLambda id (take n (rargs r)) (rres r)) ∈ defs t).
    { intros i o Hi. exact (out_in_defs t (Node id (Lambda n) ins outs [r]) i o Hd Hi). }
    assert (Hres : Forall liveo (rres r)).
    { destruct (some_alive c id (Lambda n) ins outs [r] eq_refl Ha) as (j & o & Hj & Ho). apply Forall_forall. intros x Hx.
      eapply next_live; [done | done | done | by apply (Hout j o) | done | done|]. exact Hx. }
    rewrite sweep_lambda_unfold.
    destruct (IH Hwr Hd1 Hn1 Hb1 Hz1 (rres r) []) as (ns' & s & He & H1 & H2 & H3 & H4 & H5 & H6).
    { by apply res_scope_own. }
    { eapply Forall_impl; [exact Hres|]. by left. }
    { by intros x ?%elem_of_nil. }
    rewrite He. cbn [mbind option_bind].
    destruct r as [args res ns0]. cbn [rargs rres rnodes] in *.
    assert (HA : exists A C, args = A ++ C /\ length A = n /\ length C = length ins).
    { exists (take n args), (drop n args). rewrite take_drop, take_length, drop_length. split; [done|]. lia. }
    destruct HA as (A & C & -> & <- & HlC).
    assert (HavC : forall i a, C !! i = Some a -> (a, VCopy (nth i ins 0)) ∈ defs t).
    { intros i a Hi. specialize (Hav (length A + i) a). rewrite decide_False in Hav by lia. replace (length A + i - length A) with i in Hav by lia. apply Hav.
      rewrite lookup_app_r by lia. by replace (length A + i - length A) with i by lia. }
    rewrite (prune_inputs_ok A C ins _ ns' HlC). cbn [mbind option_bind].
    change (fun i => negb (is_used (nth i C 0) ns' (s <$> res))) with (dctx C ns' (s <$> res)). set (d := dctx C ns' (s <$> res)).
    pose proof (ctx_keep_live A C ins ns' (s <$> res) [] HlC H2 H5 ltac:(by intros x ?%elem_of_nil) HavC) as Hli. fold d in Hli.
    eexists. split; [done|].
    assert (Hshr : forall x, is_used x ns' (s <$> res) = true -> x ∈ A ++ C -> x ∈ A ++ drop_at d C).
    { intros x Hu. rewrite !elem_of_app. intros [?|?]; [auto|]. right. by apply ctx_shrink. }
    split; [|split; [|split; [|split; [|split]]]]; cbn [nins nouts].
    - apply Forall_forall. intros x Hx. by eapply drop_at_subset.
    - done.
    - apply wf_node_unfold. split.
      + eexists. split; [done|]. cbn [rargs]. split; [|done]. rewrite app_length. f_equal. by apply drop_at_length.
      + apply Forall_singleton. split.
        * eapply wf_list_shrink; [exact H3|]. intros n' x Hn' Hx. apply Hshr. by eapply used_node.
        * rewrite Forall_forall in H4 |- *. intros x Hx. specialize (H4 x Hx). apply elem_of_app in H4 as [H4|H4]; apply elem_of_app; [left | by right]. apply Hshr; [by apply used_res | done].
    - apply Forall_forall. done.
    - done.
    - intros s0 Hs o w' Hw'. cbn [dins] in Hw'.
      apply ndefs_unfold in Hw' as [Hw'|(r2 & Hr2 & [Hw'|Hw'])].
      + apply elem_of_index in Hw' as (j & Hj & ->). eexists. split; [apply ndefs_unfold; left; apply elem_of_index; eauto|].
        cbn [out_view nth rres rargs]. rewrite !take_app. apply v_lambda. apply Forall2_fmap_r. apply Forall_Forall2_diag.
        rewrite Forall_forall in H1, Hres |- *. intros x Hx. apply H1; auto.
      + apply elem_of_list_singleton in Hr2 as ->. cbn [rargs] in Hw'. apply elem_of_index in Hw' as (j & Hj & ->). cbn [arg_view].
        destruct (decide (j < length A)) as [HjA|HjA].
        * rewrite lookup_app_l in Hj by lia. exists VFunArg. split; [|constructor]. apply ndefs_unfold. right. eexists. split; [left|]. left. apply elem_of_index. cbn [rargs].
          exists j. split; [by rewrite lookup_app_l by lia|]. cbn [arg_view]. by rewrite decide_True.
        * rewrite lookup_app_r in Hj by lia. destruct (drop_at_lookup _ _ _ _ Hj) as (i & Hi & Hp & Hal).
          destruct (lookup_lt_is_Some_2 ins i) as [x Hx]. { rewrite <-HlC. by eapply lookup_lt_Some. }
          exists (VCopy x). split.
          { apply ndefs_unfold. right. eexists. split; [left|]. left. apply elem_of_index. cbn [rargs]. exists (length A + i). split; [rewrite lookup_app_r by lia; by replace (length A + i - length A) with i by lia|].
            cbn [arg_view]. rewrite decide_False by lia. replace (length A + i - length A) with i by lia. by rewrite (nth_elem _ _ _ _ Hx). }
          rewrite (nth_elem (s0 <$> _) (j - length A) _ (s0 x)); [|rewrite list_lookup_fmap, Hal, Hx; done]. apply v_copy. rewrite Forall_forall in Hs. apply Hs. apply drop_at_elem. eauto.
      + apply elem_of_list_singleton in Hr2 as ->. destruct (H6 o w' Hw') as (w & Hw0 & Hv). exists w. split; [|done].
        apply ndefs_unfold. right. eexists. split; [left | right; exact Hw0].
  Qed.

  Lemma phi_step id ins outs subs : Forall (NQ t c) subs -> NP t c (Node id Phi ins outs subs).
  Proof using Hnd Hcl Hkeys.
    intros IH Hw Hd Hn Hz Ha. pose proof Hw as [(r & Esubs & Hla & Hlr) Hwr]%wf_node_unfold. subst subs.
    rewrite Forall_singleton in IH, Hwr.
    destruct (sub_pre t c Hnd id Phi ins outs [r] r Hw Hd Hn Hz ltac:(left)) as (_ & Hd1 & Hn1 & Hav & Hb1 & Hz1). cbn [arg_view] in Hav.
    assert (Hout : forall i o, outs !! i = Some o -> (o, VCopy (nth i (rres r) 0)) ∈ defs t).
    { intros i o Hi. exact (out_in_defs t (Node id Phi ins outs [r]) i o Hd Hi). }
    assert (Halive : forall o, liveo o -> o ∈ outs -> o ∈ couts c).
    { intros o Hl [i Hi]%elem_of_list_lookup. eapply live_couts; [done | by apply (Hout i) | done | done]. }
    rewrite sweep_phi_unfold. set (dead := fun i => negb (alive_out c (nth i outs 0)) && negb (alive_out c (nth i (rargs r) 0))). cbv zeta.
    pose proof (res_scope_own r Hwr) as Hsc.
    destruct r as [args res ns0]. cbn [rargs rres rnodes] in *.
    assert (HA : exists A C, args = A ++ C /\ length A = length res /\ length C = length ins).
    { exists (take (length res) args), (drop (length res) args). rewrite take_drop, take_length, drop_length. split; [done|]. lia. }
    destruct HA as (A & C & -> & HlA & HlC).
    assert (HavA : forall i a, A !! i = Some a -> (a, VCopy (nth i res 0)) ∈ defs t).
    { intros i a Hi. pose proof (lookup_lt_Some _ _ _ Hi). specialize (Hav i a). rewrite decide_True in Hav by lia. apply Hav. by rewrite lookup_app_l by lia. }
    assert (HavC : forall i a, C !! i = Some a -> (a, VCopy (nth i ins 0)) ∈ defs t).
    { intros i a Hi. specialize (Hav (length res + i) a). rewrite decide_False in Hav by lia. replace (length res + i - length res) with i in Hav by lia. apply Hav.
      rewrite lookup_app_r by lia. by replace (length res + i - length A) with i by lia. }
    assert (HdA : forall i a, A !! i = Some a -> dead i = true -> ~ liveo a).
    { intros i a Hi Hp Hl. unfold dead in Hp. apply andb_true_iff in Hp as [_ Hp]. rewrite (nth_elem (A ++ C) i _ a) in Hp by (apply lookup_app_l_Some; done).
      apply negb_true_iff, bool_decide_eq_false in Hp. apply Hp. eapply live_couts; [done | by apply (HavA i a) | done | done]. }
    assert (Hkeep : forall i x, res !! i = Some x -> dead i = false -> liveo x).
    { intros i x Hi Hp. pose proof (lookup_lt_Some _ _ _ Hi) as Hlt. unfold dead in Hp. apply andb_false_iff in Hp as [Hp|Hp]; apply negb_false_iff, bool_decide_eq_true in Hp.
      - destruct (lookup_lt_is_Some_2 outs i) as [o Ho]; [lia|]. rewrite (nth_elem _ _ _ _ Ho) in Hp.
        eapply next_live; [done | done | done | by apply (Hout i o) | done | done|]. cbn. rewrite (nth_elem _ _ _ _ Hi). left.
      - destruct (lookup_lt_is_Some_2 A i) as [a Hai]; [lia|]. rewrite (nth_elem (A ++ C) i _ a) in Hp by (apply lookup_app_l_Some; done).
        eapply next_live; [done | done | done | by apply (HavA i a) | done | done|]. cbn. rewrite (nth_elem _ _ _ _ Hi). left. }
    assert (Hred : forall i x, redirect dead (A ++ C) res !! i = Some x -> exists y, res !! i = Some y /\ (dead i = true /\ x ∈ A \/ dead i = false /\ x = y)).
    { intros i x Hi. apply redirect_lookup in Hi as (y & Hy & ->). exists y. split; [done|]. destruct (dead i); [left | right; done]. split; [done|].
      pose proof (lookup_lt_Some _ _ _ Hy). rewrite app_nth1 by lia. apply nth_in. lia. }
    destruct (IH Hwr Hd1 Hn1 Hb1 Hz1 (redirect dead (A ++ C) res) A) as (ns' & s & He & H1 & H2 & H3 & H4 & H5 & H6).
    { apply Forall_forall. intros x [i Hi]%elem_of_list_lookup. apply Hred in Hi as (y & Hy & [[_ Hx]|[_ ->]]).
      - cbn [rargs]. rewrite !elem_of_app. auto.
      - rewrite Forall_forall in Hsc. apply Hsc. by eapply elem_of_list_lookup_2. }
    { apply Forall_forall. intros x [i Hi]%elem_of_list_lookup. apply Hred in Hi as (y & Hy & [[_ Hx]|[Hp ->]]); [by right | left; eauto]. }
    { intros x Hx. cbn [rargs]. apply elem_of_app. by left. }
    rewrite He. cbn [mbind option_bind].
    rewrite <-HlA. rewrite (prune_inputs_ok A C ins _ ns' HlC). cbn [mbind option_bind].
    set (res1 := s <$> redirect dead (A ++ C) res). change (fun i => negb (is_used (nth i C 0) ns' res1)) with (dctx C ns' res1). set (d := dctx C ns' res1).
    assert (HnAC : forall x, x ∈ A -> x ∉ C). { intros x Hx HxC. apply NoDup_app in Hn1 as (Hn1 & _). apply NoDup_app in Hn1 as (_ & Hn1 & _). by apply (Hn1 x). }
    pose proof (ctx_keep_live A C ins ns' res1 A HlC H2 H5 HnAC HavC) as Hli. fold d in Hli.
    unfold remove_results at 1.
    assert (Er : drop_at dead res1 = s <$> drop_at dead res). { unfold res1. by rewrite drop_at_fmap, drop_at_redirect. }
    rewrite Er.
    assert (Hrp : forall i x, res !! i = Some x -> dead i = false -> rsl x (s x)).
    { intros i x Hi Hp. rewrite Forall_forall in H1. apply H1; [|eauto]. apply (drop_at_subset dead). rewrite drop_at_redirect. apply drop_at_elem. eauto. }
    assert (Hresl : Forall liveo (s <$> drop_at dead res)).
    { apply Forall_fmap, Forall_forall. intros x Hx. apply drop_at_elem in Hx as (i & Hi & Hp). cbn. destruct (Hrp i x Hi Hp) as (? & Hc & _). by eapply edges_live. }
    rewrite remove_arguments_ok; [|intros i a Hi [Hp1 Hp]%andb_true_iff; apply Nat.ltb_lt in Hp1; rewrite lookup_app_l in Hi by lia; apply not_true_iff_false; rewrite is_used_iff; intros Hu; apply (HdA i a Hi Hp);
      destruct Hu as [Hu|(n' & Hn' & Hu)]; [rewrite Forall_forall in Hresl; by apply Hresl | rewrite Forall_forall in H2; specialize (H2 n' Hn'); rewrite Forall_forall in H2; auto]].
    cbn [mbind option_bind]. eexists. split; [done|].
    assert (Eargs : drop_at (fun i => (i <? length A) && dead i) (A ++ drop_at d C) = drop_at dead A ++ drop_at d C).
    { rewrite drop_at_app. f_equal.
      - apply drop_at_ext. intros i Hi. by rewrite (proj2 (Nat.ltb_lt _ _)) by lia.
      - apply drop_at_none. intros i Hi. by rewrite (proj2 (Nat.ltb_ge _ _)) by lia. }
    rewrite Eargs.
    assert (Hshr : forall x, is_used x ns' res1 = true -> liveo x -> x ∈ A ++ C -> x ∈ drop_at dead A ++ drop_at d C).
    { intros x Hu Hl. rewrite !elem_of_app. intros [?|?]; [left | right; by apply ctx_shrink]. eapply dead_args_shrink; [|exact Hl | done]. intros i Hi Hp. by eapply HdA. }
    split; [|split; [|split; [|split; [|split]]]]; cbn [nins nouts].
    - apply Forall_forall. intros x Hx. by eapply drop_at_subset.
    - done.
    - apply wf_node_unfold. split.
      + eexists. split; [done|]. cbn [rargs rres]. rewrite fmap_length. split; [|by apply drop_at_length]. rewrite app_length. f_equal; apply drop_at_length; [congruence | done].
      + apply Forall_singleton. split.
        * eapply wf_list_shrink; [exact H3|]. intros n' x Hn' Hx. apply Hshr; [by eapply used_node|]. rewrite Forall_forall in H2. specialize (H2 n' Hn'). rewrite Forall_forall in H2. auto.
        * rewrite Forall_forall in Hresl |- *. intros x Hx. specialize (Hresl x Hx). assert (Hx' : x ∈ res1). { rewrite <-Er in Hx. by eapply drop_at_subset. }
          rewrite Forall_forall in H4. specialize (H4 x Hx'). apply elem_of_app in H4 as [H4|H4]; apply elem_of_app; [left | by right]. apply Hshr; [by apply used_res | done | done].
    - apply Forall_forall. intros x Hx. by eapply drop_at_subset.
    - intros o Ho Hl. pose proof (Halive o Hl Ho) as Hc. apply elem_of_list_lookup in Ho as [i Hi]. apply drop_at_elem. exists i. split; [done|].
      unfold dead. rewrite (nth_elem _ _ _ _ Hi). apply andb_false_iff. left. apply negb_false_iff. by apply bool_decide_eq_true.
    - intros s0 Hs o w' Hw'. cbn [dins] in Hw'.
      apply ndefs_unfold in Hw' as [Hw'|(r2 & Hr2 & [Hw'|Hw'])].
      + apply elem_of_index in Hw' as (j & Hj & ->). destruct (drop_at_lookup _ _ _ _ Hj) as (i & Hi & Hp & Hal).
        destruct (lookup_lt_is_Some_2 res i) as [x Hx]. { rewrite Hlr. by eapply lookup_lt_Some. }
        exists (VCopy x). split.
        { apply ndefs_unfold; left; apply elem_of_index. exists i. split; [done|]. cbn [out_view nth rres]. by rewrite (nth_elem _ _ _ _ Hx). }
        cbn [out_view nth rres]. rewrite (nth_elem (s <$> _) j _ (s x)); [|rewrite list_lookup_fmap, Hal, Hx; done]. apply v_copy. eauto.
      + apply elem_of_list_singleton in Hr2 as ->. cbn [rargs] in Hw'. apply elem_of_index in Hw' as (j & Hj & ->). cbn [arg_view rres]. rewrite fmap_length.
        assert (HlD : length (drop_at dead res) = length (drop_at dead A)) by (apply drop_at_length; done). rewrite HlD.
        destruct (decide (j < length (drop_at dead A))) as [HjA|HjA].
        * rewrite lookup_app_l in Hj by lia. destruct (drop_at_lookup _ _ _ _ Hj) as (i & Hi & Hp & Hal). pose proof (lookup_lt_Some _ _ _ Hi) as Hlt.
          destruct (lookup_lt_is_Some_2 res i) as [x Hx]; [lia|].
          exists (VCopy x). split.
          { apply ndefs_unfold. right. eexists. split; [left|]. left. apply elem_of_index. cbn [rargs]. exists i. split; [by apply lookup_app_l_Some|].
            cbn [arg_view rres]. rewrite decide_True by lia. by rewrite (nth_elem _ _ _ _ Hx). }
          rewrite (nth_elem (s <$> _) j _ (s x)); [|rewrite list_lookup_fmap, Hal, Hx; done]. apply v_copy. eauto.
        * rewrite lookup_app_r in Hj by lia. destruct (drop_at_lookup _ _ _ _ Hj) as (i & Hi & Hp & Hal).
          destruct (lookup_lt_is_Some_2 ins i) as [x Hx]. { rewrite <-HlC. by eapply lookup_lt_Some. }
          exists (VCopy x). split.
          { apply ndefs_unfold. right. eexists. split; [left|]. left. apply elem_of_index. cbn [rargs]. exists (length A + i). split; [rewrite lookup_app_r by lia; by replace (length A + i - length A) with i by lia|].
            cbn [arg_view rres]. rewrite decide_False by lia. replace (length A + i - length res) with i by lia. by rewrite (nth_elem _ _ _ _ Hx). }
          rewrite (nth_elem (s0 <$> _) (j - length (drop_at dead A)) _ (s0 x)); [|rewrite list_lookup_fmap, Hal, Hx; done]. apply v_copy. rewrite Forall_forall in Hs. apply Hs. apply drop_at_elem. eauto.
      + apply elem_of_list_singleton in Hr2 as ->. destruct (H6 o w' Hw') as (w & Hw0 & Hv). exists w. split; [|done].
        apply ndefs_unfold. right. eexists. split; [left | right; exact Hw0].
  Qed.

  Lemma prune_ok (res : list oid) ns : Forall (fun n => exists op, nkind n = Simple op) ns -> (forall n d, n ∈ ns -> d ∈ ndefs n -> d ∈ defs t) -> Forall liveo res ->
    forall av, wf_list wf_node av ns -> Forall (fun x => x ∈ av ++ own ns) res ->
    let ns' := prune_list res ns in
    Forall (fun n => n ∈ ns) ns' /\ Forall (fun n => Forall liveo (nins n)) ns' /\ wf_list wf_node av ns' /\ Forall (fun x => x ∈ av ++ own ns') res.
  Proof using Hnd Hcl Hkeys.
    intros Hk Hd Hr. induction ns as [|n ns IH]; intros av Hw Hs; cbn [prune_list]; [split; [constructor|]; split; [constructor|]; split; done|].
    apply Forall_cons in Hk as [[op Hkn] Hk]. destruct Hw as (Hi & Hwn & Hw). rewrite own_cons, app_assoc in Hs.
    destruct (IH Hk ltac:(intros n' d Hn'; apply (Hd n' d); by right) (av ++ nouts n) Hw Hs) as (H1 & H2 & H3 & H4). fold (prune_list res). set (ns' := prune_list res ns) in *.
    assert (H1' : Forall (fun n0 => n0 ∈ n :: ns) ns') by (eapply Forall_impl; [exact H1|]; intros; by right).
    assert (Hu : forall x, is_used x ns' res = true -> liveo x).
    { intros x. rewrite is_used_iff. intros [H|(n' & Hn' & H)]; [rewrite Forall_forall in Hr; auto|]. rewrite Forall_forall in H2. specialize (H2 n' Hn'). rewrite Forall_forall in H2. auto. }
    destruct (existsb (fun o => is_used o ns' res) (nouts n)) eqn:E.
    - apply existsb_exists in E as (o & Ho%elem_of_list_In & Huo). pose proof (Hu o Huo) as Hlo. apply elem_of_list_lookup in Ho as [i Ho].
      pose proof (out_in_defs t n i o (fun d => Hd n d ltac:(left)) Ho) as Hod. pose proof (live_unique t c Hnd _ _ Hod Hlo) as Hl. rewrite Hkn in Hod, Hl. cbn [out_view live] in Hod, Hl.
      destruct Hl as [Hl|[? _]]; [|done]. destruct (Hcl _ _ Hod) as [Hc _]. specialize (Hc Hl).
      split; [constructor; [left | done]|]. split; [|split].
      + constructor; [|done]. rewrite Forall_forall in Hc |- *. intros x Hx. apply (lvl_liveo t c Hnd); [|auto]. eapply Hkeys; [exact Hod | exact Hx].
      + cbn [wf_list]. done.
      + rewrite own_cons, app_assoc. done.
    - assert (Hun : forall x, x ∈ nouts n -> is_used x ns' res = true -> False).
      { intros x Hx Hux. assert (existsb (fun o => is_used o ns' res) (nouts n) = true); [|congruence]. apply existsb_exists. exists x. split; [by apply elem_of_list_In | done]. }
      split; [done|]. split; [done|]. split.
      + eapply wf_list_shrink; [exact H3|]. intros n' x Hn' Hx Hxa. apply elem_of_app in Hxa as [?|Hxa]; [done|]. destruct (Hun x Hxa). by eapply used_node.
      + rewrite Forall_forall in H4 |- *. intros x Hx. specialize (H4 x Hx). revert H4. rewrite !elem_of_app. intros [[?|Ho]|?]; [auto| |auto]. destruct (Hun x Ho). by apply used_res.
  Qed.

  Lemma delta_step id ins outs subs : NP t c (Node id Delta ins outs subs).
  Proof using Hnd Hcl Hkeys.
    intros Hw Hd Hn Hz Ha. pose proof Hw as [(r & Esubs & Hla & Hlr & Hlo & Hkinds) Hwr]%wf_node_unfold. subst subs.
    rewrite Forall_singleton in Hwr.
    destruct (sub_pre t c Hnd id Delta ins outs [r] r Hw Hd Hn Hz ltac:(left)) as (_ & Hd1 & Hn1 & Hav & Hb1 & Hz1). cbn [arg_view] in Hav.
    destruct r as [args res ns0]. cbn [rargs rres rnodes] in *.
    assert (Hout : forall i o, outs !! i = Some o -> (o, VDelta id res) ∈ defs t).
    { intros i o Hi. exact (out_in_defs t (Node id Delta ins outs [Region args res ns0]) i o Hd Hi). }
    assert (Hres : Forall liveo res).
    { destruct (some_alive c id Delta ins outs [Region args res ns0] eq_refl Ha) as (j & o & Hj & Ho). apply Forall_forall. intros x Hx.
      eapply next_live; [done | done | done | by apply (Hout j o) | done | done|]. cbn [mark_next]. destruct res as [|y [|? ?]]; try discriminate Hlr. exact Hx. }
    destruct Hwr as [Hwl Hsc]. rewrite sweep_delta_unfold.
    assert (Hdn : forall n d, n ∈ ns0 -> d ∈ ndefs n -> d ∈ defs t). { intros n d Hin H. apply Hd1, rdefs_unfold. eauto. }
    destruct (prune_ok res ns0 Hkinds Hdn Hres args Hwl Hsc) as (H1 & H2 & H3 & H4). set (ns' := prune_list res ns0) in *.
    change 0 with (length (@nil nat)) at 1. change args with ([] ++ args) at 1. rewrite (prune_inputs_ok [] args ins res ns' Hla). cbn [mbind option_bind app].
    change (fun i => negb (is_used (nth i args 0) ns' res)) with (dctx args ns' res). set (d := dctx args ns' res).
    assert (Hres' : Forall (fun x => liveo x \/ x ∈ []) res) by (eapply Forall_impl; [exact Hres|]; by left).
    pose proof (ctx_keep_live [] args ins ns' res [] Hla H2 Hres' ltac:(by intros x ?%elem_of_nil) Hav) as Hli. fold d in Hli.
    assert (Hnb : forall x, x ∈ args ++ own ns0 -> ~ byp x).
    { intros x. rewrite elem_of_app. intros [?|Hx]; [auto|]. apply elem_of_own in Hx as (n & Hin & [i Hx]%elem_of_list_lookup). intros (id' & op & k & ins' & Hb & _).
      rewrite Forall_forall in Hkinds. destruct (Hkinds n Hin) as [op' Ek]. pose proof (out_in_defs t n i x (fun d => Hdn n d Hin) Hx) as Hx'. rewrite Ek in Hx'.
      pose proof (defs_fun _ _ _ _ Hnd Hb Hx') as Hv. discriminate Hv. }
    eexists. split; [done|].
    split; [|split; [|split; [|split; [|split]]]]; cbn [nins nouts].
    - apply Forall_forall. intros x Hx. by eapply drop_at_subset.
    - done.
    - apply wf_node_unfold. split.
      + eexists. split; [done|]. cbn [rargs rres rnodes]. split; [by apply drop_at_length|]. split; [done|]. split; [done|]. rewrite Forall_forall in Hkinds, H1 |- *. intros n Hin. apply Hkinds. auto.
      + apply Forall_singleton. split.
        * eapply wf_list_shrink; [exact H3|]. intros n' x Hn' Hx. apply ctx_shrink. by eapply used_node.
        * rewrite Forall_forall in H4 |- *. intros x Hx. specialize (H4 x Hx). apply elem_of_app in H4 as [H4|H4]; apply elem_of_app; [left | by right]. apply ctx_shrink; [by apply used_res | done].
    - apply Forall_forall. done.
    - done.
    - intros s0 Hs o w' Hw'. cbn [dins] in Hw'.
      apply ndefs_unfold in Hw' as [Hw'|(r2 & Hr2 & [Hw'|Hw'])].
      + apply elem_of_index in Hw' as (j & Hj & ->). exists (VDelta id res). split; [apply ndefs_unfold; left; apply elem_of_index; eauto|].
        cbn [out_view nth rres]. apply v_delta. apply Forall_Forall2_diag.
        rewrite Forall_forall in Hres, Hsc |- *. intros x Hx. split; [auto|]. split; [constructor|]. apply Hnb. auto.
      + apply elem_of_list_singleton in Hr2 as ->. cbn [rargs] in Hw'. apply elem_of_index in Hw' as (j & Hj & ->). cbn [arg_view].
        destruct (drop_at_lookup _ _ _ _ Hj) as (i & Hi & Hp & Hal).
        destruct (lookup_lt_is_Some_2 ins i) as [x Hx]. { rewrite <-Hla. by eapply lookup_lt_Some. }
        exists (VCopy x). split.
        { apply ndefs_unfold. right. eexists. split; [left|]. left. apply elem_of_index. cbn [rargs]. exists i. split; [done|]. cbn [arg_view]. by rewrite (nth_elem _ _ _ _ Hx). }
        rewrite (nth_elem (s0 <$> _) j _ (s0 x)); [|rewrite list_lookup_fmap, Hal, Hx; done]. apply v_copy. rewrite Forall_forall in Hs. apply Hs. apply drop_at_elem. eauto.
      + apply elem_of_list_singleton in Hr2 as ->. apply rdefs_unfold in Hw' as (n & Hin & Hw'). rewrite Forall_forall in H1. pose proof (H1 n Hin) as Hin0.
        exists w'. split.
        { apply ndefs_unfold. right. eexists. split; [left|]. right. apply rdefs_unfold. eauto. }
        rewrite Forall_forall in Hkinds. destruct (Hkinds n Hin0) as [op Ek]. pose proof (wf_list_Forall _ _ _ Hwl) as Hwf. rewrite Forall_forall in Hwf. specialize (Hwf n Hin0).
        destruct n as [id' k ins' outs' subs']. cbn [nkind] in Ek. subst k. apply wf_node_unfold in Hwf as [-> _].
        apply ndefs_unfold in Hw' as [Hw'|(? & ?%elem_of_nil & _)]; [|done]. apply elem_of_index in Hw' as (j & _ & ->). cbn [out_view]. apply v_simple, Forall_Forall2_diag.
        rewrite Forall_forall in H2. specialize (H2 _ Hin). cbn [nins] in H2. rewrite Forall_forall in H2 |- *. intros x Hx. split; [auto|]. split; [constructor|]. apply Hnb.
        pose proof (wf_list_scope _ _ _ Hwl) as Hscp. rewrite Forall_forall in Hscp. specialize (Hscp _ Hin0). cbn [nins] in Hscp. rewrite Forall_forall in Hscp. auto.
  Qed.

  Lemma simple_step id k ins outs subs : structural k = false -> NP t c (Node id k ins outs subs).
  Proof using Hnd Hcl Hkeys.
    intros Hk Hw Hd Hn Hz Ha. pose proof Hw as [Hsh _]%wf_node_unfold.
    assert (Hid : id ∈ cnodes c) by (destruct k; try discriminate; by apply bool_decide_eq_true in Ha).
    assert (Es : subs = []) by (destruct k; try discriminate; [exact Hsh | by destruct Hsh]). subst subs.
    exists (Node id k ins outs []). split; [by destruct k|].
    assert (Hne : outs <> []) by (apply (Hz (Node id k ins outs [])); [cbn [nodes_in]; left | exact Hk | exact Hid]).
    assert (Hfall : Forall liveo ins).
    { destruct outs as [|o outs]; [done|]. pose proof (out_in_defs t (Node id k ins (o :: outs) []) 0 o Hd eq_refl) as Ho. cbn [nid nkind nins nouts nsubs] in Ho.
      apply Forall_forall. intros x Hx. destruct k; try discriminate; cbn [out_view] in Ho; destruct (Hcl _ _ Ho) as [Hc _]; specialize (Hc Hid); rewrite Forall_forall in Hc;
        (apply (lvl_liveo t c Hnd); [eapply Hkeys; [exact Ho | exact Hx] | auto]). }
    split; [|split; [|split; [|split; [|split]]]]; cbn [nins nouts].
    - by apply Forall_forall.
    - done.
    - done.
    - by apply Forall_forall.
    - done.
    - intros s Hs o w' Hw'. cbn [dins] in Hw'. apply ndefs_unfold in Hw' as [Hw'|(? & ?%elem_of_nil & _)]; [|done].
      apply elem_of_index in Hw' as (j & Hj & ->). exists (out_view id k ins outs [] j). split; [apply ndefs_unfold; left; apply elem_of_index; eauto|].
      destruct k; try discriminate; cbn [out_view]; apply v_simple, Forall2_fmap_r, Forall_Forall2_diag; exact Hs.
  Qed.

  Lemma all_steps : (forall n, NP t c n) /\ (forall r, NQ t c r).
  Proof using Hnd Hcl Hkeys.
    apply tree_ind.
    - intros id k ins outs subs IH. destruct k; [by apply simple_step | by apply simple_step | by apply gamma_step | by apply theta_step | by apply lambda_step | by apply phi_step | apply delta_step].
    - intros args res ns IH. by apply region_step.
  Qed.
End Node.
