(** Induction over the module. *)
From stdpp Require Import base list list_numbers fin_sets gmap.
From Verif.Rvsdg Require Import Model Spec Sem Wf WfFacts ListFacts Args Chase.
From Verif.Dne Require Import Model ProofsList ProofsNode ProofsIds ProofsShrink ProofsMain.
From Verif.Ivr Require Import Model Spec ProofsRel ProofsWf.

(** the part of well-formedness that concerns one subtree *)
Definition good_region (r : region) : Prop := wf_region r /\ NoDup (rargs r ++ rkeys r) /\ NoDup (region_ids r).
Definition good_node (n : node) : Prop := wf_node n /\ NoDup (nkeys n) /\ NoDup (node_ids n).
Lemma good_subs n r : good_node n -> r ∈ nsubs n -> good_region r.
Proof.
  destruct n as [id k ins outs subs]. intros (Hw & Hk & Hi) Hr. cbn [nsubs] in Hr. apply wf_node_unfold in Hw as [_ Hw]. rewrite Forall_forall in Hw. split; [auto|].
  unfold nkeys in Hk. rewrite nkeys_eq in Hk. apply NoDup_app in Hk as (_ & _ & Hk). cbn [node_ids] in Hi. apply NoDup_cons in Hi as [_ Hi]. split.
  - exact (NoDup_mjoin_elem _ _ _ Hk Hr).
  - exact (NoDup_mjoin_elem _ _ _ Hi Hr).
Qed.
Lemma good_nodes args res ns n : good_region (Region args res ns) -> n ∈ ns -> good_node n.
Proof.
  intros ((Hw & _) & Hk & Hi) Hn. unfold rkeys in Hk. rewrite rkeys_eq in Hk. cbn [rargs] in Hk. apply NoDup_app in Hk as (_ & _ & Hk). cbn [region_ids] in Hi. apply wf_list_Forall in Hw. rewrite Forall_forall in Hw. split; [auto|]. split.
  - exact (NoDup_mjoin_elem _ _ _ Hk Hn).
  - exact (NoDup_mjoin_elem _ _ _ Hi Hn).
Qed.
Lemma good_ids args res ns : good_region (Region args res ns) -> NoDup (map nid ns).
Proof.
  intros (_ & _ & Hi). cbn [region_ids] in Hi. induction ns as [|n ns IH]; [constructor|]. change (mjoin (map node_ids (n :: ns))) with (node_ids n ++ mjoin (map node_ids ns)) in Hi. apply NoDup_app in Hi as (_ & Hd & Hi).
  cbn [map]. constructor; [|auto]. intros H. apply elem_of_list_In, in_map_iff in H as (m & He & Hm%elem_of_list_In). apply (Hd (nid n)); [destruct n; cbn; left|]. apply elem_of_mjoin_map. exists m. split; [done|]. rewrite <-He. destruct m; cbn; left.
Qed.
Lemma good_own args res ns : good_region (Region args res ns) -> NoDup (own ns) /\ forall y, y ∈ args -> y ∈ own ns -> False.
Proof.
  intros (_ & Hk & _). cbn [rargs] in Hk. apply NoDup_app in Hk as (_ & Hd & Hk). split.
  - apply own_nodup. unfold rkeys in Hk. by rewrite rkeys_eq in Hk.
  - intros y Hy Ho. apply (Hd y Hy). by apply (own_rkeys (Region args res ns)).
Qed.
Lemma sub_good r r' : wf_region r' -> sub_region r' r -> good_region r -> good_region r'.
Proof. intros Hw [H1 H2] (_ & G1 & G2). split; [done|]. split; [exact (NoDup_sub _ _ G1 H1) | exact (NoDup_sub _ _ G2 H2)]. Qed.
Lemma sub_node_good n n' : wf_node n' -> sub_node n' n -> good_node n -> good_node n'.
Proof. intros Hw [H1 H2] (_ & G1 & G2). split; [done|]. split; [exact (NoDup_sub _ _ G1 H1) | exact (NoDup_sub _ _ G2 H2)]. Qed.
Lemma sub_region_refl r : sub_region r r.
Proof. by split. Qed.
Lemma sub_region_intro args res res' ns ns' : Forall2 sub_node ns' ns -> sub_region (Region args res' ns') (Region args res ns).
Proof.
  intros H. split; unfold rkeys; rewrite ?rkeys_eq; cbn [rargs region_ids]; [apply sublist_app; [done|]|]; apply sublist_mjoin2; (eapply Forall2_impl; [exact H|]); by intros ?? [? ?].
Qed.
Lemma sub_region_sublist args res res' ns ns' : ns' `sublist_of` ns -> sub_region (Region args res' ns') (Region args res ns).
Proof. intros H. split; unfold rkeys; rewrite ?rkeys_eq; cbn [rargs region_ids]; [apply sublist_app; [done|]|]; by apply sublist_mjoin. Qed.
Lemma same_sub n n' : same n n' -> sub_node n' n.
Proof. destruct n as [id k ins outs subs], n' as [id' k' ins' outs' subs']. intros (H1 & H2 & H3 & H4). cbn in *. subst. apply sub_node_intro; [done|]. clear. induction subs; constructor; [apply sub_region_refl | done]. Qed.
(** what does not change: the arguments and the number of results of the subregions *)
Definition rshape (r r' : region) : Prop := rargs r' = rargs r /\ length (rres r') = length (rres r).
Lemma shape_same k ins outs subs subs' : Forall2 rshape subs subs' -> (k = Delta -> subs' = subs) -> shape k ins outs subs -> shape k ins outs subs'.
Proof.
  intros Hs Hd. assert (H1 : forall r, subs = [r] -> exists r', subs' = [r'] /\ rshape r r'). { intros r ->. inversion Hs as [|? r' ? ? Hr Hn]; subst. inversion Hn; subst. eauto. }
  destruct k; cbn [shape].
  - intros ->. by inversion Hs.
  - intros [-> ?]. inversion Hs. done.
  - intros [Hne Hf]. split; [done|]. clear H1 Hd. induction Hs as [|r r' l l' [Ha Hr] Hl IH]; [constructor|]. apply Forall_cons in Hf as [[? ?] Hf]. constructor; [rewrite Ha, Hr; done | auto].
  - intros (r & He & H). destruct (H1 r He) as (r' & -> & Ha & Hr). exists r'. rewrite Ha, Hr. done.
  - intros (r & He & H). destruct (H1 r He) as (r' & -> & Ha & Hr). exists r'. rewrite Ha. done.
  - intros (r & He & H). destruct (H1 r He) as (r' & -> & Ha & Hr). exists r'. rewrite Ha, Hr. done.
  - rewrite (Hd eq_refl). done.
Qed.

Section Main.
  Context (cfg : config) (io : oid -> bool) (ord : list node -> list nat).
  Local Notation rn := (redirect_node cfg io ord).
  Local Notation rr := (redirect_region cfg io ord).
  Lemma list_wf f (g : node -> node) av ns : wf_list f av ns -> (forall n, n ∈ ns -> nins (g n) = nins n /\ nouts (g n) = nouts n /\ wf_node (g n)) -> wf_list wf_node av (map g ns) /\ own (map g ns) = own ns.
  Proof using.
    revert av. induction ns as [|n ns IH]; intros av; [done|]. cbn [wf_list map]. intros (H1 & H2 & H3) Hg. destruct (Hg n ltac:(left)) as (G1 & G2 & G3). destruct (IH _ H3 ltac:(intros; apply Hg; by right)) as [I1 I2].
    rewrite !own_cons, G2, G1, I2. done.
  Qed.
  Lemma sub_map (g : node -> node) ns : Forall (fun n => sub_node (g n) n) ns -> Forall2 sub_node (map g ns) ns.
  Proof using. intros H. apply Forall2_fmap_l. by apply Forall_Forall2_diag. Qed.

  Lemma redirect_ok : (forall n, good_node n -> wf_node (rn n) /\ sub_node (rn n) n) /\
    (forall r, good_region r -> wf_region (rr r) /\ sub_region (rr r) r /\ rshape r (rr r)).
  Proof using.
    apply tree_ind.
    - intros id k ins outs subs IH Hg. rewrite Forall_forall in IH. pose proof (fun r => good_subs _ r Hg) as Hgs. cbn [nsubs] in Hgs. pose proof Hg as (Hw & _ & _).
      assert (Hself : wf_node (Node id k ins outs subs) /\ sub_node (Node id k ins outs subs) (Node id k ins outs subs)) by (split; [done | by split]).
      assert (Hmap : (k = Gamma \/ k = Theta) -> wf_node (Node id k ins outs (map rr subs)) /\ sub_node (Node id k ins outs (map rr subs)) (Node id k ins outs subs)).
      { intros Hk. apply wf_node_unfold in Hw as [Hsh Hwr]. rewrite Forall_forall in Hwr. split.
        - apply wf_node_unfold. split.
          + eapply shape_same; [|destruct Hk as [-> | ->]; discriminate | exact Hsh]. apply Forall2_fmap_r, Forall_Forall2_diag, Forall_forall. intros r Hr. by destruct (IH r Hr (Hgs r Hr)) as (_ & _ & ?).
          + apply Forall_forall. intros r' Hr'. apply elem_of_list_In, in_map_iff in Hr' as (r & <- & Hr%elem_of_list_In). by destruct (IH r Hr (Hgs r Hr)) as (? & _ & _).
        - apply sub_node_intro; [done|]. apply Forall2_fmap_l, Forall_Forall2_diag, Forall_forall. intros r Hr. by destruct (IH r Hr (Hgs r Hr)) as (_ & ? & _). }
      destruct k; cbn [redirect_node]; auto.
    - intros args res ns IH Hg. rewrite Forall_forall in IH. rewrite redirect_region_unfold. set (st := foldl _ _ _).
      pose proof (fun n => good_nodes _ _ _ n Hg) as Hgn. destruct (good_own _ _ _ Hg) as [Hown Hdisj]. pose proof Hg as ((Hw & Hres) & _ & _).
      assert (Hsub : Forall2 sub_node (map rn ns) ns). { apply sub_map, Forall_forall. intros n Hn. by destruct (IH n Hn (Hgn n Hn)). }
      destruct (list_wf _ rn args ns Hw) as [Hw1 Ho1].
      { intros n Hn. destruct (IH n Hn (Hgn n Hn)) as [? _]. split; [|split; [|done]]; by destruct n as [? [] ? ? ?]. }
      assert (Hok : okst args (map rn ns) st).
      { apply visits_ok.
        - intros n s Hn Hs. apply elem_of_list_In, in_map_iff in Hn as (m & <- & Hm%elem_of_list_In). destruct (IH m Hm (Hgn m Hm)) as [G1 G2].
          pose proof (sub_node_good _ _ G1 G2 (Hgn m Hm)) as Hgm. pose proof (good_subs _ _ Hgm Hs) as (_ & H%NoDup_app & _). by destruct H as [? _].
        - assert (map nid (map rn ns) = map nid ns) as ->; [|by eapply good_ids]. rewrite map_map. apply map_ext. intros [? [] ? ? ?]; done.
        - split; cbn [fst snd]; rewrite ?Ho1; try done. apply Forall_Forall2_diag, Forall_forall. intros n _. by repeat split. }
      destruct Hok as [G1 G2 G3 G4 G5]. destruct (prune_wf _ st.2 st.1 args G1 G2) as [P1 P2].
      assert (Hsub2 : sub_region (Region args st.2 (prune_list st.2 st.1)) (Region args res ns)).
      { eapply sub_region_trans; [apply (sub_region_sublist args st.2 st.2 st.1), prune_sublist|]. eapply (sub_region_trans _ (Region args res (map rn ns))); [|by apply sub_region_intro].
        apply sub_region_intro. apply Forall2_flip. eapply Forall2_impl; [exact G3|]. intros. by apply same_sub. }
      split; [by split|]. split; [done|]. split; [done|]. cbn [rres].
      assert (HD : (forall d, d ∈ rdefs (Region args res ns) -> (fun _ : oid * view => True) d)) by done.
      destruct (proj2 (redirect_rel (fun _ => True) cfg io ord) (Region args res ns) HD) as (_ & Hr & _). rewrite redirect_region_unfold in Hr. cbn [rres] in Hr. fold st in Hr. symmetry. by eapply Forall2_length.
  Qed.
  Lemma top_ok : (forall n, good_node n -> wf_node (redirect_top cfg io ord n) /\ sub_node (redirect_top cfg io ord n) n) /\
    (forall r, good_region r -> wf_region (ivr cfg io ord r) /\ sub_region (ivr cfg io ord r) r /\ rshape r (ivr cfg io ord r)).
  Proof using.
    apply tree_ind.
    - intros id k ins outs subs IH Hg. rewrite Forall_forall in IH. pose proof (fun r => good_subs _ r Hg) as Hgs. cbn [nsubs] in Hgs. pose proof Hg as (Hw & _ & _).
      assert (Hself : wf_node (Node id k ins outs subs) /\ sub_node (Node id k ins outs subs) (Node id k ins outs subs)) by (split; [done | by split]).
      assert (Hmap : forall f, k <> Delta -> (forall r, r ∈ subs -> wf_region (f r) /\ sub_region (f r) r /\ rshape r (f r)) -> wf_node (Node id k ins outs (map f subs)) /\ sub_node (Node id k ins outs (map f subs)) (Node id k ins outs subs)).
      { intros f Hk Hf. apply wf_node_unfold in Hw as [Hsh Hwr]. rewrite Forall_forall in Hwr. split.
        - apply wf_node_unfold. split.
          + apply (shape_same _ _ _ subs); [|done | exact Hsh]. apply Forall2_fmap_r, Forall_Forall2_diag, Forall_forall. intros r Hr. by destruct (Hf r Hr) as (_ & _ & ?).
          + apply Forall_forall. intros r' Hr'. apply elem_of_list_In, in_map_iff in Hr' as (r & <- & Hr%elem_of_list_In). by destruct (Hf r Hr) as (? & _ & _).
        - apply sub_node_intro; [done|]. apply Forall2_fmap_l, Forall_Forall2_diag, Forall_forall. intros r Hr. by destruct (Hf r Hr) as (_ & ? & _). }
      destruct k; cbn [redirect_top]; auto.
      + apply Hmap; [done|]. intros r Hr. apply redirect_ok. auto.
      + apply (Hmap (ivr cfg io ord)); [done|]. intros r Hr. apply IH; auto.
    - intros args res ns IH Hg. rewrite Forall_forall in IH. cbn [ivr]. pose proof (fun n => good_nodes _ _ _ n Hg) as Hgn. pose proof Hg as ((Hw & Hres) & _ & _).
      destruct (list_wf _ (redirect_top cfg io ord) args ns Hw) as [Hw1 Ho1].
      { intros n Hn. destruct (IH n Hn (Hgn n Hn)) as [? _]. split; [|split; [|done]]; by destruct n as [? [] ? ? ?]. }
      split; [split; [done | by rewrite Ho1]|]. split; [|done]. apply sub_region_intro, sub_map, Forall_forall. intros n Hn. by destruct (IH n Hn (Hgn n Hn)).
  Qed.
  Lemma wf_good t : wf t <-> good_region t.
  Proof using. unfold wf, good_region. rewrite defs_keys_eq. done. Qed.
  Lemma ivr_wf t : wf t -> wf (ivr cfg io ord t).
  Proof using. rewrite !wf_good. intros Hg. destruct (proj2 top_ok t Hg) as (H1 & H2 & _). by eapply sub_good. Qed.

  (** ** no users of invariant outputs are left *)
  Context (Hord : forall ns n, n ∈ ns -> nid n ∈ ord ns).
  Definition clean (r : region) : Prop := forall n o, n ∈ rnodes r -> stable cfg io n o -> no_users o r.
  (** the region and the regions of the branches and loops in it *)
  Inductive within (r : region) : region -> Prop :=
    | within_self : within r r
    | within_sub r' n s : within r r' -> n ∈ rnodes r' -> (nkind n = Gamma \/ nkind n = Theta) -> s ∈ nsubs n -> within r s.
  Lemma within_inv r s : within r s -> s = r \/ exists n r1, n ∈ rnodes r /\ (nkind n = Gamma \/ nkind n = Theta) /\ r1 ∈ nsubs n /\ within r1 s.
  Proof using.
    clear. induction 1 as [|r' n s H [->|(m & r1 & Hm & Hk & Hr1 & Hw)] Hn Hkn Hs]; [by left| |]; right.
    - exists n, s. repeat split; auto. constructor.
    - exists m, r1. repeat split; auto. econstructor; eauto.
  Qed.
  Lemma redirect_clean : (forall n, good_node n -> (nkind n = Gamma \/ nkind n = Theta) -> forall r s, r ∈ nsubs (rn n) -> within r s -> clean s) /\ (forall r, good_region r -> forall s, within (rr r) s -> clean s).
  Proof using Hord.
    apply tree_ind.
    - intros id k ins outs subs IH Hg Hk r s Hr Hs. cbn [nkind] in Hk. rewrite Forall_forall in IH. assert (nsubs (rn (Node id k ins outs subs)) = map rr subs) as E by (by destruct Hk as [-> | ->]). rewrite E in Hr.
      apply elem_of_list_In, in_map_iff in Hr as (r0 & <- & Hr0%elem_of_list_In). apply (IH r0 Hr0); [by apply (good_subs _ _ Hg) | done].
    - intros args res ns IH Hg s Hs. rewrite Forall_forall in IH. rewrite redirect_region_unfold in Hs. set (st := foldl _ _ _) in Hs.
      pose proof (fun n => good_nodes _ _ _ n Hg) as Hgn. destruct (good_own _ _ _ Hg) as [Hown Hdisj]. pose proof Hg as ((Hw & Hres) & _ & _).
      destruct (list_wf _ rn args ns Hw) as [Hw1 Ho1].
      { intros n Hn. destruct (proj1 redirect_ok n (Hgn n Hn)) as [? _]. split; [|split; [|done]]; by destruct n as [? [] ? ? ?]. }
      assert (Hok : okst args (map rn ns) st /\ (forall n o, n ∈ map rn ns -> nid n ∈ ord ns -> stable cfg io n o -> ~ used o st)).
      { destruct (visits_ok cfg io args (map rn ns) (ord ns)) with (st := (map rn ns, res)) as (V1 & V2 & V3); [| | |done].
        - intros n s' Hn Hs'. apply elem_of_list_In, in_map_iff in Hn as (m & <- & Hm%elem_of_list_In). destruct (proj1 redirect_ok m (Hgn m Hm)) as [G1 G2].
          pose proof (sub_node_good _ _ G1 G2 (Hgn m Hm)) as Hgm. pose proof (good_subs _ _ Hgm Hs') as (_ & H%NoDup_app & _). by destruct H as [? _].
        - assert (map nid (map rn ns) = map nid ns) as ->; [|by eapply good_ids]. rewrite map_map. apply map_ext. intros [? [] ? ? ?]; done.
        - split; cbn [fst snd]; rewrite ?Ho1; try done. apply Forall_Forall2_diag, Forall_forall. intros n _. by repeat split. }
      destruct Hok as [Hok Hun]. assert (Hsame : forall n', n' ∈ prune_list st.2 st.1 -> exists n, n ∈ ns /\ same (rn n) n').
      { intros n' Hn'%elem_of_prune. apply elem_of_list_lookup in Hn' as [j Hj]. destruct (Forall2_lookup_r _ _ _ _ _ (ok_same _ _ _ Hok) Hj) as (n1 & Hn1 & Hs1). apply elem_of_list_lookup_2, elem_of_list_In, in_map_iff in Hn1 as (n & <- & Hn%elem_of_list_In). eauto. }
      apply within_inv in Hs as [->|(n' & r1 & Hn' & Hk & Hr1 & Hs)]; cbn [rnodes] in *.
      + intros n' o Hn' Hst. cbn [rnodes] in Hn'. destruct (Hsame n' Hn') as (n & Hn & Hsm). pose proof (stable_same _ _ _ _ _ Hsm Hst) as Hst'.
        assert (Hu : ~ used o st). { apply (Hun (rn n) o); [apply elem_of_list_In, in_map, elem_of_list_In; done | | done]. assert (nid (rn n) = nid n) as -> by (by destruct n as [? [] ? ? ?]). by apply Hord. }
        split; cbn [rres rnodes]; [intros H; apply Hu; by left|]. intros m Hm%elem_of_prune Ho. apply Hu. right. eauto.
      + destruct (Hsame n' Hn') as (n & Hn & (_ & Hkn & _ & Hsn)). rewrite Hsn in Hr1. rewrite Hkn in Hk. eapply (IH n Hn (Hgn n Hn)); [|exact Hr1 | exact Hs]. by destruct n as [? [] ? ? ?].
  Qed.
  Lemma fun_region_inv t s : fun_region t s -> (exists n k r, n ∈ rnodes t /\ nkind n = Lambda k /\ r ∈ nsubs n /\ within r s) \/ (exists n r, n ∈ rnodes t /\ nkind n = Phi /\ r ∈ nsubs n /\ fun_region r s).
  Proof using.
    clear. induction 1 as [t n k r Hn Hk Hr | t n s r Hn Hk Hs H IH | t r n s H [(m & k & r0 & Hm & Hk & Hr0 & Hw)|(m & r0 & Hm & Hk & Hr0 & Hw)] Hn Hkn Hs].
    - left. exists n, k, r. repeat split; auto. constructor.
    - right. exists n, s. auto.
    - left. exists m, k, r0. repeat split; auto. econstructor; eauto.
    - right. exists m, r0. repeat split; auto. eapply fr_inner; eauto.
  Qed.
  Lemma top_clean : (forall n, good_node n -> (forall k, nkind n = Lambda k -> forall r s, r ∈ nsubs (redirect_top cfg io ord n) -> within r s -> clean s) /\
      (nkind n = Phi -> forall r s, r ∈ nsubs (redirect_top cfg io ord n) -> fun_region r s -> clean s)) /\
    (forall r, good_region r -> forall s, fun_region (ivr cfg io ord r) s -> clean s).
  Proof using Hord.
    apply tree_ind.
    - intros id k ins outs subs IH Hg. rewrite Forall_forall in IH. split.
      + intros m Hk r s Hr Hs. cbn [nkind] in Hk. subst k. cbn [redirect_top nsubs] in Hr. apply elem_of_list_In, in_map_iff in Hr as (r0 & <- & Hr0%elem_of_list_In). eapply (proj2 redirect_clean); [|exact Hs]. by apply (good_subs _ _ Hg).
      + intros Hk r s Hr Hs. cbn [nkind] in Hk. subst k. change (nsubs (redirect_top cfg io ord (Node id Phi ins outs subs))) with (map (ivr cfg io ord) subs) in Hr.
        apply elem_of_list_In, in_map_iff in Hr as (r0 & <- & Hr0%elem_of_list_In). apply (IH r0 Hr0); [by apply (good_subs _ _ Hg) | done].
    - intros args res ns IH Hg s Hs. rewrite Forall_forall in IH. cbn [ivr] in Hs. pose proof (fun n => good_nodes _ _ _ n Hg) as Hgn.
      apply fun_region_inv in Hs as [(n' & k & r & Hn' & Hk & Hr & Hw)|(n' & r & Hn' & Hk & Hr & Hw)]; cbn [rnodes] in Hn'; apply elem_of_list_In, in_map_iff in Hn' as (n & <- & Hn%elem_of_list_In);
        destruct (IH n Hn (Hgn n Hn)) as [I1 I2].
      + eapply (I1 k); [|exact Hr | exact Hw]. by destruct n as [? [] ? ? ?].
      + eapply I2; [|exact Hr | exact Hw]. by destruct n as [? [] ? ? ?].
  Qed.
End Main.
