(** Gamma and theta nodes. *)
From stdpp Require Import base list list_numbers fin_sets gmap relations.
From Verif.Rvsdg Require Import Model Spec Sem Wf WfFacts ListFacts.
From Verif.Dne Require Import Model Spec ProofsMark Rel ProofsList ProofsNode.

Lemma sweep_gamma_unfold c id ins outs subs : sweep_node c (Node id Gamma ins outs subs) =
  let dead i := negb (alive_out c (nth i outs 0)) in
  subs' ← mapM (fun r => sweep_region c r (drop_at dead (rres r))) subs;
  let dead_in i := (1 <=? i) && forallb (fun r => negb (alive_out c (nth i (rargs r) 0))) subs' in
  subs'' ← mapM (remove_arguments dead_in) subs';
  Some (Node id Gamma (drop_at dead_in ins) (drop_at dead outs) subs'').
Proof. done. Qed.
Lemma sweep_theta_unfold c id ins outs r : sweep_node c (Node id Theta ins outs [r]) =
  let dead i := negb (alive_out c (nth i (rargs r) 0)) && negb (alive_out c (nth i outs 0)) in
  r1 ← sweep_region c r (take 1 (rres r) ++ redirect dead (rargs r) (drop 1 (rres r)));
  r2 ← remove_arguments dead (remove_results (fun i => (1 <=? i) && dead (i - 1)) r1);
  Some (Node id Theta (drop_at dead ins) (drop_at dead outs) [r2]).
Proof. done. Qed.
Lemma mapM_build {A B} (f : A -> option B) (P : A -> B -> Prop) l : (forall x, x ∈ l -> exists y, f x = Some y /\ P x y) ->
  exists l', mapM f l = Some l' /\ Forall2 P l l'.
Proof.
  induction l as [|x l IH]; intros H; [exists []; done|]. destruct (H x) as (y & Hy & HP); [left|].
  destruct IH as (l' & Hl' & HF). { intros z Hz. apply H. by right. }
  exists (y :: l'). split; [|by constructor]. cbn. rewrite Hy. cbn. rewrite Hl'. done.
Qed.
Lemma Forall2_elem_r {A B} (P : A -> B -> Prop) l k y : Forall2 P l k -> y ∈ k -> exists x, x ∈ l /\ P x y.
Proof. induction 1 as [|a b l k H H2 IH]; [by intros ?%elem_of_nil|]. rewrite elem_of_cons. intros [->|Hy]; [exists a; split; [left | done]|]. destruct (IH Hy) as (x & ? & ?). exists x. split; [by right | done]. Qed.
Lemma Forall2_elem_l {A B} (P : A -> B -> Prop) l k x : Forall2 P l k -> x ∈ l -> exists y, y ∈ k /\ P x y.
Proof. induction 1 as [|a b l k H H2 IH]; [by intros ?%elem_of_nil|]. rewrite elem_of_cons. intros [->|Hy]; [exists b; split; [left | done]|]. destruct (IH Hy) as (y & ? & ?). exists y. split; [by right | done]. Qed.

Lemma Forall2_impl_in {A B} (P Q : A -> B -> Prop) l k : Forall2 P l k -> (forall x y, x ∈ l -> P x y -> Q x y) -> Forall2 Q l k.
Proof. induction 1 as [|a b l k H H2 IH]; intros Hi; constructor; [apply Hi; [left | done]|]. apply IH. intros x y Hx. apply Hi. by right. Qed.

Section Node.
  Context (t : region) (c : ctx).
  Context (Hnd : NoDup (defs t).*1) (Hcl : closed t c).
  Context (Hkeys : forall o w x, (o, w) ∈ defs t -> x ∈ refs w -> x ∈ (defs t).*1).
  Local Notation liveo := (liveo t c).
  Local Notation byp := (byp t c).
  Local Notation rsl := (rsl t c).
  Local Notation vrel := (vrel t c).

  Lemma sub_pre id k ins outs subs r : wf_node (Node id k ins outs subs) -> (forall d, d ∈ ndefs (Node id k ins outs subs) -> d ∈ defs t) ->
    NoDup (ndefs (Node id k ins outs subs)).*1 -> zok c (Node id k ins outs subs) -> r ∈ subs ->
    wf_region r /\ (forall d, d ∈ rdefs r -> d ∈ defs t) /\ NoDup (rargs r ++ (rdefs r).*1) /\
    (forall i a, rargs r !! i = Some a -> (a, arg_view k ins outs r i) ∈ defs t) /\ (forall x, x ∈ rargs r -> ~ byp x) /\ zokr c r.
  Proof using Hnd.
    clear Hcl Hkeys. intros [_ Hw]%wf_node_unfold Hd Hn Hz Hr. rewrite Forall_forall in Hw. split; [auto|].
    assert (Ha : forall i a, rargs r !! i = Some a -> (a, arg_view k ins outs r i) ∈ defs t).
    { intros i a Hi. apply Hd, ndefs_unfold. right. exists r. split; [done|]. left. apply elem_of_index. eauto. }
    split; [|split; [|split; [done|split]]].
    - intros d H. apply Hd. destruct d. apply ndefs_unfold. right. eauto.
    - rewrite nkeys_eq in Hn. apply NoDup_app in Hn as (_ & _ & Hn). exact (NoDup_mjoin_elem (fun r => rargs r ++ (rdefs r).*1) subs r Hn Hr).
    - intros x [i Hi]%elem_of_list_lookup. eapply nonsimple_not_byp; [done | by apply Ha | apply arg_view_not_simple].
    - intros m Hm. apply Hz. cbn [nodes_in]. right. apply elem_of_mjoin_map. eauto.
  Qed.
  Lemma res_scope_own r : wf_region r -> Forall (fun x => x ∈ rargs r ++ own (rnodes r)) (rres r).
  Proof using. clear. destruct r as [args res ns]. by intros [_ H]. Qed.
  Lemma some_alive id k ins outs subs : structural k = true -> alive_node c (Node id k ins outs subs) = true -> exists i o, outs !! i = Some o /\ o ∈ couts c.
  Proof using.
    clear. intros Hk Ha. assert (H : existsb (alive_out c) outs = true) by (destruct k; try discriminate; exact Ha).
    apply existsb_exists in H as (o & Ho%elem_of_list_In & H). apply elem_of_list_lookup in Ho as [i Hi]. exists i, o. split; [done|]. unfold alive_out in H. by apply bool_decide_eq_true in H.
  Qed.

  Definition gsub (din : nat -> bool) (dead : nat -> bool) (r r2 : region) : Prop :=
    exists s ns', r2 = Region (drop_at din (rargs r)) (s <$> drop_at dead (rres r)) ns' /\
      Forall (fun x => rsl x (s x)) (drop_at dead (rres r)) /\ wf_region r2 /\
      (forall o w', (o, w') ∈ rdefs r2 -> exists w, (o, w) ∈ rdefs r /\ vrel w w').

  Lemma gamma_step id ins outs subs : Forall (NQ t c) subs -> NP t c (Node id Gamma ins outs subs).
  Proof using Hnd Hcl Hkeys.
    intros IH Hw Hd Hn Hz Ha. pose proof Hw as [[Hne Hsh] Hwr]%wf_node_unfold.
    assert (Hout : forall i o, outs !! i = Some o -> (o, VGamma (nth 0 ins 0) (gamma_branch ins i <$> subs)) ∈ defs t).
    { intros i o Hi. exact (out_in_defs t (Node id Gamma ins outs subs) i o Hd Hi). }
    assert (Halive : forall o, liveo o -> o ∈ outs -> o ∈ couts c).
    { intros o Hl [i Hi]%elem_of_list_lookup. eapply live_couts; [done | by apply (Hout i) | done | done]. }
    rewrite sweep_gamma_unfold. set (dead := fun i => negb (alive_out c (nth i outs 0))). cbv zeta.
    assert (Hdead : forall i o, outs !! i = Some o -> dead i = false <-> o ∈ couts c).
    { intros i o Hi. unfold dead. rewrite (nth_elem _ _ _ _ Hi), negb_false_iff. unfold alive_out. apply bool_decide_eq_true. }
    (* the results that are left are live *)
    assert (Hres : forall r, r ∈ subs -> Forall liveo (drop_at dead (rres r))).
    { intros r Hr. apply Forall_forall. intros x Hx. apply drop_at_elem in Hx as (i & Hx & Hp). rewrite Forall_forall in Hsh. destruct (Hsh r Hr) as [_ Hlen].
      destruct (lookup_lt_is_Some_2 outs i) as [o Ho]. { rewrite <-Hlen. by eapply lookup_lt_Some. }
      eapply next_live; [done | done | done | by apply (Hout i) | done | by apply (Hdead i o Ho) |]. cbn [mark_next]. right.
      apply elem_of_list_fmap. exists (nth i (rres r) 0, nth 0 (rargs r) 0). split; [by rewrite (nth_elem _ _ _ _ Hx)|].
      apply elem_of_list_fmap. exists (gamma_branch ins i r). split; [done|]. apply elem_of_list_fmap. eauto. }
    destruct (mapM_build (fun r => sweep_region c r (drop_at dead (rres r)))
      (fun r r1 => exists s ns', r1 = Region (rargs r) (s <$> drop_at dead (rres r)) ns' /\
        Forall (fun x => rsl x (s x)) (drop_at dead (rres r)) /\ Forall (fun n => Forall liveo (nins n)) ns' /\ wf_list wf_node (rargs r) ns' /\
        Forall (fun x => x ∈ rargs r ++ own ns') (s <$> drop_at dead (rres r)) /\ Forall liveo (s <$> drop_at dead (rres r)) /\
        (forall o w', (o, w') ∈ mjoin (map ndefs ns') -> exists w, (o, w) ∈ rdefs r /\ vrel w w')) subs) as (subs' & Hm & HF).
    { intros r Hr. rewrite Forall_forall in IH. destruct (sub_pre id Gamma ins outs subs r Hw Hd Hn Hz Hr) as (Hw1 & Hd1 & Hn1 & _ & Hb1 & Hz1).
      destruct (IH r Hr Hw1 Hd1 Hn1 Hb1 Hz1 (drop_at dead (rres r)) []) as (ns' & s & He & H1 & H2 & H3 & H4 & H5 & H6).
      - pose proof (res_scope_own r Hw1) as Hs. rewrite Forall_forall in Hs |- *. intros x Hx. eapply Hs, drop_at_subset; eauto.
      - eapply Forall_impl; [by apply Hres|]. intros x Hx. by left.
      - by intros x ?%elem_of_nil.
      - eexists. split; [exact He|]. exists s, ns'. split; [done|]. split; [|split; [done|split; [done|split; [done|split; [|done]]]]].
        + specialize (Hres r Hr). rewrite Forall_forall in H1, Hres |- *. intros x Hx. apply H1; auto.
        + eapply Forall_impl; [exact H5|]. intros x [?|?%elem_of_nil]; done. }
    rewrite Hm. cbn [mbind option_bind].
    set (din := fun i => (1 <=? i) && forallb (fun r => negb (alive_out c (nth i (rargs r) 0))) subs').
    assert (Hargs' : forall r1, r1 ∈ subs' -> exists r, r ∈ subs /\ rargs r1 = rargs r).
    { intros r1 Hr1. destruct (Forall2_elem_r _ _ _ _ HF Hr1) as (r & Hr & (s & ns' & -> & _)). exists r. done. }
    assert (Hdin : forall r i a, r ∈ subs -> rargs r !! i = Some a -> din i = true -> ~ liveo a).
    { intros r i a Hr Hi Hp Hl. unfold din in Hp. apply andb_true_iff in Hp as [_ Hp]. rewrite forallb_forall in Hp.
      destruct (Forall2_elem_l _ _ _ _ HF Hr) as (r1 & Hr1 & (s & ns' & -> & _)). apply elem_of_list_In in Hr1. apply Hp in Hr1. cbn [rargs] in Hr1.
      rewrite (nth_elem _ _ _ _ Hi) in Hr1. apply negb_true_iff in Hr1. unfold alive_out in Hr1. apply bool_decide_eq_false in Hr1. apply Hr1.
      destruct (sub_pre id Gamma ins outs subs r Hw Hd Hn Hz Hr) as (_ & _ & _ & Hav & _ & _). eapply live_couts; [done | by apply Hav | done | done]. }
    assert (Hkeep : forall i x, ins !! i = Some x -> din i = false -> liveo x).
    { intros i x Hi Hp. unfold din in Hp. apply andb_false_iff in Hp as [Hp|Hp].
      - apply Nat.leb_gt in Hp. assert (i = 0) as -> by lia. destruct (some_alive id Gamma ins outs subs eq_refl Ha) as (j & o & Hj & Ho).
        eapply next_live; [done | done | done | by apply (Hout j) | done | done|]. cbn [mark_next]. rewrite (nth_elem _ _ _ _ Hi). left.
      - apply not_true_iff_false in Hp. assert (Hex : exists r1, r1 ∈ subs' /\ alive_out c (nth i (rargs r1) 0) = true).
        { clear -Hp. induction subs' as [|r1 l IHl]; [by destruct Hp|]. cbn [forallb] in Hp. destruct (alive_out c (nth i (rargs r1) 0)) eqn:E; [exists r1; split; [left | done]|].
          cbn in Hp. destruct (IHl Hp) as (r2 & ? & ?). exists r2. split; [by right | done]. }
        destruct Hex as (r1 & Hr1 & Hal). destruct (Hargs' r1 Hr1) as (r & Hr & Ear). rewrite Ear in Hal. rewrite Forall_forall in Hsh. destruct (Hsh r Hr) as [Hlen _].
        destruct (lookup_lt_is_Some_2 (rargs r) i) as [a Hai]. { rewrite Hlen. by eapply lookup_lt_Some. }
        rewrite (nth_elem _ _ _ _ Hai) in Hal. unfold alive_out in Hal. apply bool_decide_eq_true in Hal.
        destruct (sub_pre id Gamma ins outs subs r Hw Hd Hn Hz Hr) as (_ & _ & _ & Hav & _ & _).
        eapply next_live; [done | done | done | by apply (Hav i a) | done | done |]. cbn [arg_view mark_next]. rewrite (nth_elem _ _ _ _ Hi). left. }
    destruct (mapM_build (remove_arguments din) (fun r1 r2 => r2 = Region (drop_at din (rargs r1)) (rres r1) (rnodes r1)) subs') as (subs'' & Hm2 & HF2).
    { intros r1 Hr1. destruct (Forall2_elem_r _ _ _ _ HF Hr1) as (r & Hr & (s & ns' & -> & H1 & H2 & H3 & H4 & H5 & H6)). eexists. split; [|done].
      apply remove_arguments_ok. intros i a Hi Hp. apply not_true_iff_false. rewrite is_used_iff. intros Hu. apply (Hdin r i a Hr Hi Hp).
      destruct Hu as [Hu|(n' & Hn' & Hu)]; [rewrite Forall_forall in H5; auto|]. rewrite Forall_forall in H2. specialize (H2 n' Hn'). rewrite Forall_forall in H2. auto. }
    rewrite Hm2. cbn [mbind option_bind].
    assert (HG : Forall2 (gsub din dead) subs subs'').
    { clear Hm Hm2 IH Hsh Hwr Hres Hout Halive Ha Hz Hd Hn Hw Hkeep.
      assert (Hdin' : forall r i a, r ∈ subs -> rargs r !! i = Some a -> din i = true -> ~ liveo a) by exact Hdin. clear Hdin. clearbody din. clear Hargs'.
      revert subs'' HF2. induction HF as [|r r1 subs subs' HR HF IH]; intros subs'' HF2; inversion HF2 as [|? r2 ? subs2 HR2 HF3]; subst; [constructor|]. constructor.
      - destruct HR as (s & ns' & -> & H1 & H2 & H3 & H4 & H5 & H6). cbn [rargs rres rnodes]. exists s, ns'. split; [done|]. split; [done|]. split.
        + assert (Hsh : forall x, liveo x -> x ∈ rargs r -> x ∈ drop_at din (rargs r)).
          { intros x Hl Hx. eapply dead_args_shrink; [|exact Hl | done]. intros i Hi Hp. eapply Hdin'; [left | done | done]. }
          split.
          * eapply wf_list_shrink; [exact H3|]. intros n' x Hn' Hx Hxa. apply Hsh; [|done]. rewrite Forall_forall in H2. specialize (H2 n' Hn'). rewrite Forall_forall in H2. auto.
          * rewrite Forall_forall in H4, H5 |- *. intros x Hx. specialize (H4 x Hx). specialize (H5 x Hx). revert H4. rewrite !elem_of_app. intros [?|?]; auto.
        + exact H6.
      - apply IH; [|done]. intros r' i a Hr'. apply Hdin'. by right. }
    eexists. split; [done|].
    assert (Hx0 : exists x0 insr, ins = x0 :: insr) by (destruct ins as [|x0 insr]; [done | eauto]). destruct Hx0 as (x0 & insr & Eins).
    assert (Hin0 : drop_at din ins = x0 :: drop_at (fun i => din (S i)) insr) by (rewrite Eins; done).
    split; [|split; [|split; [|split; [|split]]]]; cbn [nins nouts].
    - apply Forall_forall. intros x Hx. by eapply drop_at_subset.
    - apply Forall_forall. intros x Hx. apply drop_at_elem in Hx as (i & Hi & Hp). eauto.
    - apply wf_node_unfold. split; [split|].
      + rewrite Hin0. done.
      + apply Forall_forall. intros r2 Hr2. destruct (Forall2_elem_r _ _ _ _ HG Hr2) as (r & Hr & (s & ns' & -> & _)). cbn [rargs rres].
        rewrite Forall_forall in Hsh. destruct (Hsh r Hr) as [? ?]. split; [by apply drop_at_length|]. rewrite fmap_length. by apply drop_at_length.
      + apply Forall_forall. intros r2 Hr2. destruct (Forall2_elem_r _ _ _ _ HG Hr2) as (r & Hr & (s & ns' & -> & _ & ? & _)). done.
    - apply Forall_forall. intros x Hx. by eapply drop_at_subset.
    - intros o Ho Hl. pose proof (Halive o Hl Ho) as Hc. apply elem_of_list_lookup in Ho as [i Hi]. apply drop_at_elem. exists i. split; [done|]. by apply (Hdead i o Hi).
    - intros s Hs o w' Hw'. cbn [dins] in Hw'.
      assert (Hsr : forall i x, ins !! i = Some x -> din i = false -> rsl x (s x)).
      { intros i x Hi Hp. rewrite Forall_forall in Hs. apply Hs. apply drop_at_elem. eauto. }
      apply ndefs_unfold in Hw' as [Hw'|(r2 & Hr2 & [Hw'|Hw'])].
      + apply elem_of_index in Hw' as (j & Hj & ->). destruct (drop_at_lookup _ _ _ _ Hj) as (i & Hi & Hp & Hal).
        exists (VGamma (nth 0 ins 0) (gamma_branch ins i <$> subs)). split; [apply ndefs_unfold; left; apply elem_of_index; eauto|].
        cbn [out_view]. apply v_gamma.
        * rewrite Hin0, Eins. cbn. apply (Hsr 0); [by rewrite Eins | done].
        * apply Forall2_fmap. eapply Forall2_impl_in; [exact HG|]. intros r r2 Hr (s2 & ns' & -> & Hrs & _ & _). unfold brel, gamma_branch. cbn [fst snd rres rargs].
          rewrite Forall_forall in Hsh. destruct (Hsh r Hr) as [Hlen Hlen2].
          destruct (lookup_lt_is_Some_2 (rres r) i) as [x Hx]. { rewrite Hlen2. by eapply lookup_lt_Some. }
          split; [|split].
          -- rewrite (nth_elem _ _ _ _ Hx). rewrite (nth_elem _ j _ (s2 x)); [|rewrite list_lookup_fmap, Hal, Hx; done]. rewrite Forall_forall in Hrs. apply Hrs.
             apply drop_at_elem. eauto.
          -- destruct (rargs r); done.
          -- rewrite Hin0, fmap_cons. cbn [tail]. rewrite drop_at_tail by done. rewrite Eins. cbn [tail]. apply esrel_drop.
             ++ rewrite Eins in Hlen. destruct (rargs r); [done|]. cbn in *. lia.
             ++ intros k a Hk. apply (Hdin r (S k) a Hr). destruct (rargs r); [done | exact Hk].
             ++ intros k y Hk. apply (Hsr (S k)). by rewrite Eins.
      + destruct (Forall2_elem_r _ _ _ _ HG Hr2) as (r & Hr & (s2 & ns' & -> & _)). cbn [rargs] in Hw'. apply elem_of_index in Hw' as (j & Hj & ->).
        destruct (drop_at_lookup _ _ _ _ Hj) as (i & Hi & Hp & Hal). exists (VGammaArg (nth i ins 0)). split.
        { apply ndefs_unfold. right. exists r. split; [done|]. left. apply elem_of_index. eauto. }
        rewrite Forall_forall in Hsh. destruct (Hsh r Hr) as [Hlen _].
        destruct (lookup_lt_is_Some_2 ins i) as [x Hx]. { rewrite <-Hlen. by eapply lookup_lt_Some. }
        cbn [arg_view]. rewrite (nth_elem _ _ _ _ Hx). rewrite (nth_elem _ j _ (s x)); [|rewrite list_lookup_fmap, Hal, Hx; done]. apply v_garg. eauto.
      + destruct (Forall2_elem_r _ _ _ _ HG Hr2) as (r & Hr & (s2 & ns' & -> & _ & _ & H6)). destruct (H6 o w' Hw') as (w & Hw0 & Hv). exists w. split; [|done].
        apply ndefs_unfold. right. exists r. auto.
  Qed.
End Node.
