(** The owners of outputs. *)
From stdpp Require Import base list list_numbers fin_sets gmap.
From Verif.Rvsdg Require Import Model Spec Sem Wf WfFacts Local Args.
From Verif.Trace Require Import Model Spec.

Lemma reg_region_of t r : reg t r <-> region_of t r.
Proof. split; induction 1; econstructor; eauto. Qed.
Lemma elem_numbered {A B} (f : nat -> A -> B) l y : y ∈ map (fun '(i, a) => f i a) (numbered l) <-> exists i a, l !! i = Some a /\ y = f i a.
Proof.
  unfold numbered. rewrite elem_of_list_In, in_map_iff. split.
  - intros ([i a] & <- & H%elem_of_list_In). apply elem_of_lookup_imap in H as (j & x & [= -> ->] & H). eauto.
  - intros (i & a & H & ->). exists (i, a). split; [done|]. apply elem_of_list_In, elem_of_lookup_imap. exists i, a. done.
Qed.
Lemma nowners_unfold r id k ins outs subs d : d ∈ nowners r (Node id k ins outs subs) <->
  (exists i o, outs !! i = Some o /\ d = (o, OutputOf r (Node id k ins outs subs) i)) \/
  exists b s, subs !! b = Some s /\ ((exists i o, rargs s !! i = Some o /\ d = (o, ArgumentOf r (Node id k ins outs subs) b s i)) \/ d ∈ rowners s).
Proof.
  cbn [nowners]. rewrite elem_of_app, elem_of_list_join.
  rewrite (elem_numbered (fun i o => (o, OutputOf r (Node id k ins outs subs) i))). apply or_iff_compat_l. split.
  - intros (l & Hd & Hl). apply elem_of_lookup_imap in Hl as (b & f & -> & Hf). change (map ?g subs) with (g <$> subs) in Hf.
    rewrite list_lookup_fmap in Hf. destruct (subs !! b) as [s|] eqn:Es; [|done]. injection Hf as <-. exists b, s. split; [done|]. cbn [fst snd] in Hd. apply elem_of_app in Hd as [Hd|Hd]; [|auto].
    left. by apply (elem_numbered (fun i o => (o, ArgumentOf r (Node id k ins outs subs) b s i))) in Hd.
  - intros (b & s & Hs & Hd). eexists. split; [|apply elem_of_lookup_imap; exists b, (s, rowners s); split; [reflexivity|]].
    + cbn [fst snd]. apply elem_of_app. destruct Hd as [Hd|Hd]; [|auto]. left. by apply (elem_numbered (fun i o => (o, ArgumentOf r (Node id k ins outs subs) b s i))).
    + change (map ?g subs) with (g <$> subs). by rewrite list_lookup_fmap, Hs.
Qed.
Lemma rowners_unfold r d : d ∈ rowners r <-> exists n, n ∈ rnodes r /\ d ∈ nowners r n.
Proof. destruct r as [args res ns]. cbn [rowners rnodes]. apply elem_of_mjoin_map. Qed.
Definition owned_at (t : region) (o : oid) (w : owner) : Prop :=
  match w with
  | OutputOf r n i => reg t r /\ n ∈ rnodes r /\ nouts n !! i = Some o
  | ArgumentOf r n b s i => reg t r /\ n ∈ rnodes r /\ nsubs n !! b = Some s /\ rargs s !! i = Some o
  | RootArgument => o ∈ rargs t
  end.
Lemma rowners_reg t r d : reg t r -> d ∈ rowners r -> d ∈ rowners t.
Proof.
  intros H. revert d. induction H as [|r n s H IH Hn Hs]; intros d Hd; [done|]. apply IH. apply rowners_unfold. exists n. split; [done|].
  destruct n as [id k ins outs subs]. cbn [nsubs] in Hs. apply nowners_unfold. right. apply elem_of_list_lookup in Hs as [b Hb]. eauto.
Qed.
Lemma owners_at t o w : owned_at t o w -> (o, w) ∈ owners t.
Proof.
  unfold owners. rewrite elem_of_app. destruct w as [r n i | r n b s i |]; cbn [owned_at].
  - intros (Hr & Hn & Ho). right. eapply rowners_reg; [exact Hr|]. apply rowners_unfold. exists n. split; [done|]. destruct n. apply nowners_unfold. left. eauto.
  - intros (Hr & Hn & Hs & Ho). right. eapply rowners_reg; [exact Hr|]. apply rowners_unfold. exists n. split; [done|]. destruct n. apply nowners_unfold. right. exists b, s. split; [done|]. left. eauto.
  - intros Ho. left. apply elem_of_list_In, in_map_iff. exists o. rewrite <-elem_of_list_In. done.
Qed.
Lemma owners_inv t o w : (o, w) ∈ owners t -> owned_at t o w.
Proof.
  unfold owners. rewrite elem_of_app. intros [H|H].
  - apply elem_of_list_In, in_map_iff in H as (x & [= <- <-] & H%elem_of_list_In). done.
  - assert (G : (forall n, forall r, reg t r -> n ∈ rnodes r -> (o, w) ∈ nowners r n -> owned_at t o w) /\ (forall r, reg t r -> (o, w) ∈ rowners r -> owned_at t o w)).
    { apply tree_ind.
      - intros id k ins outs subs IH r Hr Hn Hd. rewrite Forall_forall in IH. apply nowners_unfold in Hd as [(i & x & Hi & [= <- ->])|(b & s & Hs & [(i & x & Hi & [= <- ->])|Hd])].
        + done.
        + done.
        + pose proof (elem_of_list_lookup_2 _ _ _ Hs) as Hin. apply (IH s Hin); [|done]. eapply reg_sub; eauto.
      - intros args res ns IH Hr Hd. apply rowners_unfold in Hd as (n & Hn & Hd). rewrite Forall_forall in IH. exact (IH n Hn _ Hr Hn Hd). }
    apply (proj2 G t); [constructor | done].
Qed.
Lemma fst_numbered {A} (f : nat -> A -> owner) (l : list A) : (map (fun '(i, a) => (a, f i a)) (numbered l)).*1 = l.
Proof. unfold numbered. change (map ?g (imap pair l)) with (g <$> imap pair l). rewrite !fmap_imap. apply list_eq. intros i. rewrite list_lookup_imap. by destruct (l !! i). Qed.
Lemma owner_keys : (forall n r, (nowners r n).*1 = (ndefs n).*1) /\ (forall r, (rowners r).*1 = (rdefs r).*1).
Proof.
  apply tree_ind.
  - intros id k ins outs subs IH r. rewrite nkeys_eq. cbn [nowners]. rewrite fmap_app. f_equal; [by rewrite (fst_numbered (fun i _ => OutputOf r (Node id k ins outs subs) i))|].
    set (n := Node id k ins outs subs). clearbody n. generalize 0 as b0. revert IH. generalize subs as l. intros l IH.
    assert (G : forall f : nat -> nat, (mjoin (imap (fun b (g : region * list (nat * owner)) => map (fun '(i, o) => (o, ArgumentOf r n (f b) g.1 i)) (numbered (rargs g.1)) ++ g.2) (map (fun s => (s, rowners s)) l))).*1 = mjoin (map (fun r0 : region => rargs r0 ++ (rdefs r0).*1) l)).
    { induction IH as [|s l Hs _ IHl]; intros f; [done|]. cbn [map imap]. change (mjoin (?x :: ?y)) with (x ++ mjoin y). rewrite !fmap_app. cbn [fst snd].
      rewrite (fst_numbered (fun i _ => ArgumentOf r n (f 0) s i)), Hs. f_equal. exact (IHl (f ∘ S)). }
    intros _. exact (G (fun b => b)).
  - intros args res ns IH. rewrite rkeys_eq. change (rowners (Region args res ns)) with (mjoin (map (nowners (Region args res ns)) ns)). rewrite fst_mjoin. f_equal.
    generalize (Region args res ns) as r0. intros r0. induction IH as [|n l Hn _ IHl]; [done|]. cbn [map]. by rewrite Hn, IHl.
Qed.
Lemma owners_keys t : (owners t).*1 = (defs t).*1.
Proof.
  unfold owners, defs. rewrite !fmap_app, (proj2 owner_keys). f_equal. rewrite <-!list_fmap_compose. done.
Qed.
Section Owner.
  Context (t : region) (Hnd : NoDup (defs t).*1).
  Lemma owner_of_iff o w : owner_of t o = Some w <-> owned_at t o w.
  Proof using Hnd.
    unfold owner_of. split.
    - destruct (list_find _ _) as [[i [x w']]|] eqn:E; [|done]. apply list_find_Some in E as (E1 & E2 & _). cbn in E2. subst x. intros [= <-]. apply owners_inv. by eapply elem_of_list_lookup_2.
    - intros H%owners_at. destruct (list_find _ _) as [[i [x w']]|] eqn:E.
      + apply list_find_Some in E as (E1 & E2 & _). cbn in E2. subst x. cbn. f_equal. apply elem_of_list_lookup_2 in E1. pose proof Hnd as Hnd'. rewrite <-owners_keys in Hnd'.
        apply (elem_of_list_to_map_1 (M:=gmap nat)) in H; [|done]. apply (elem_of_list_to_map_1 (M:=gmap nat)) in E1; [|done]. congruence.
      + apply list_find_None in E. rewrite Forall_forall in E. by destruct (E _ H).
  Qed.
  Lemma owner_fun o w w' : owned_at t o w -> owned_at t o w' -> w = w'.
  Proof using Hnd. rewrite <-!owner_of_iff. congruence. Qed.
  Lemma owned_key o : o ∈ (defs t).*1 <-> exists w, owner_of t o = Some w.
  Proof using Hnd.
    rewrite <-owners_keys, elem_of_fst. split; intros [w H]; exists w; [apply owner_of_iff, owners_inv, H | apply owners_at, owner_of_iff, H].
  Qed.
End Owner.
