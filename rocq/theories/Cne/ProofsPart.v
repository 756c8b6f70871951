(** Partitioning the arguments of a region. *)
From stdpp Require Import base list list_numbers fin_sets gmap.
From Verif.Rvsdg Require Import Model Spec.
From Verif.Ivr Require Import Model.
From Verif.Cne Require Import Model ProofsState.

Lemma lookup_key_Some {K} `{EqDecision K} (k : K) l i : lookup_key k l = Some i -> (k, i) ∈ l.
Proof.
  unfold lookup_key. destruct (list_find _ l) as [[j [k' i']]|] eqn:E; [|done]. cbn. intros [= ->]. apply list_find_Some in E as (H & He & _). cbn in He. subst. by eapply elem_of_list_lookup_2.
Qed.
Record pinv (σ0 : cstate) (don : list (oid * nat)) (new : list ((option nat * nat) * nat)) (σ : cstate) : Prop := PInv {
  p_sw : SW σ;
  p_ext : ext σ0 σ don.*1;
  p_done : forall a key, (a, key) ∈ don -> marked σ a /\ exists b, (b, key) ∈ don /\ lead σ a = b /\ cmap σ0 !! b = cmap σ0 !! a;
  p_new : forall c key i, ((c, key), i) ∈ new -> exists b, (b, key) ∈ don /\ cmap σ0 !! b = c /\ leads σ !! i = Some b;
  p_len : length (leads σ0) <= length (leads σ);
  p_same : length (leads σ) = length (leads σ0) -> σ = σ0 }.
Lemma foldl_None {A B} (f : option A -> B -> option A) l : (forall x, f None x = None) -> foldl f None l = None.
Proof. intros H. induction l as [|x l IH]; cbn; [done|]. by rewrite H. Qed.
Lemma pinv_step σ0 don new σ a key new' σ' : pinv σ0 don new σ -> a ∉ don.*1 -> partition_step (Some (new, σ)) (a, key) = Some (new', σ') -> pinv σ0 (don ++ [(a, key)]) new' σ'.
Proof.
  intros [H1 H2 H3 H4 H5 H6] Ha. cbn [partition_step mbind option_bind fst snd].
  assert (Hc : cmap σ !! a = cmap σ0 !! a) by (by apply H2). assert (Hin : (a, key) ∈ don ++ [(a, key)]) by (apply elem_of_app; right; left).
  assert (Hsub : forall d, d ∈ don -> d ∈ don ++ [(a, key)]) by (intros d Hd; apply elem_of_app; by left).
  assert (Hk : (don ++ [(a, key)]).*1 = don.*1 ++ [a]) by (by rewrite fmap_app).
  assert (Hext : forall σ', ext σ σ' [a] -> ext σ0 σ' (don ++ [(a, key)]).*1).
  { intros σ1 He. rewrite Hk. eapply ext_trans; [eapply ext_weaken; [|exact H2] | eapply ext_weaken; [|exact He]]; intros x Hx; apply elem_of_app; auto. }
  assert (Hold : forall σ', SW σ' -> ext σ σ' [a] -> (marked σ' a /\ exists b, (b, key) ∈ don ++ [(a, key)] /\ lead σ' a = b /\ cmap σ0 !! b = cmap σ0 !! a) ->
    forall a' key', (a', key') ∈ don ++ [(a, key)] -> marked σ' a' /\ exists b, (b, key') ∈ don ++ [(a, key)] /\ lead σ' a' = b /\ cmap σ0 !! b = cmap σ0 !! a').
  { intros σ1 Hw1 He Hn a' key'. rewrite elem_of_app, elem_of_list_singleton. intros [Hd|[= -> ->]]; [|done]. assert (Hna : a' ∉ [a]). { rewrite elem_of_list_singleton. intros ->. apply Ha. apply elem_of_list_fmap. by exists (a, key'). }
    destruct (H3 _ _ Hd) as (G1 & b & G2 & G3 & G4). split; [by eapply ext_marked|]. exists b. split; [auto|]. split; [|done]. by rewrite (ext_lead _ _ _ _ H1 He Hna). }
  destruct (lookup_key _ new) as [i|] eqn:El.
  - apply lookup_key_Some in El. destruct (H4 _ _ _ El) as (b & Hb & Hbc & Hbl). case_decide as Hcur.
    + intros [= <- <-]. split; [done | by apply Hext, ext_refl | | | done | done].
      * apply Hold; [done | apply ext_refl|]. split; [eexists; done|]. exists b. split; [auto|]. split; [by eapply lead_Some | by rewrite Hbc].
      * intros c key' j Hj. destruct (H4 _ _ _ Hj) as (b' & ? & ? & ?). exists b'. auto.
    + destruct (add_follower i a σ) as [σ1|] eqn:E; cbn [mbind option_bind]; [|done]. intros [= <- <-]. pose proof (add_follower_spec _ _ _ _ H1 (ex_intro _ _ Hbl) E) as (G1 & G2 & G3 & G4). split; [done | by apply Hext | | | by rewrite G3 |].
      * apply Hold; [done | done|]. split; [eexists; done|]. exists b. split; [auto|]. split; [eapply lead_Some; [done | by rewrite G3] | by rewrite Hbc].
      * intros c key' j Hj. destruct (H4 _ _ _ Hj) as (b' & ? & ? & ?). exists b'. rewrite G3. auto.
      * intros Hlen. rewrite G3 in Hlen. specialize (H6 Hlen). subst σ0. exfalso. apply Hcur. rewrite <-Hbc. by apply H1.
  - destruct (get_or_create σ a) as [i σ1] eqn:E. intros [= <- <-]. pose proof (get_or_create_spec _ _ _ _ H1 E) as (G1 & G2 & G3 & G4 & G5 & G6). split; [done | by apply Hext | | | lia |].
    + apply Hold; [done | done|]. split; [eexists; done|]. exists a. split; [done|]. split; [by eapply lead_Some | done].
    + intros c key' j [[= -> -> ->]|Hj]%elem_of_cons; [exists a; split; [done|]; done|]. destruct (H4 _ _ _ Hj) as (b' & ? & ? & ?). exists b'. split; [auto|]. split; [done|]. by eapply prefix_lookup; [|apply G2].
    + intros Hlen. destruct (G6 ltac:(lia)) as [-> _]. apply H6. lia.
Qed.
Lemma pinv_fold l σ0 don new σ new' σ' : pinv σ0 don new σ -> NoDup (don ++ l).*1 -> foldl partition_step (Some (new, σ)) l = Some (new', σ') -> pinv σ0 (don ++ l) new' σ'.
Proof.
  revert don new σ. induction l as [|[a key] l IH]; intros don new σ Hp Hn; cbn [foldl]; [rewrite app_nil_r; by intros [= <- <-]|].
  assert (Ha : a ∉ don.*1). { rewrite fmap_app in Hn. apply NoDup_app in Hn as (_ & Hd & _). intros Hin. apply (Hd a Hin). left. }
  destruct (partition_step (Some (new, σ)) (a, key)) as [[new1 σ1]|] eqn:E; [|by rewrite foldl_None]. intros H. pose proof (pinv_step _ _ _ _ _ _ _ _ Hp Ha E) as Hp'. rewrite cons_middle, app_assoc in Hn |- *. by eapply IH.
Qed.
(** after partitioning, the leader of an argument is an argument with the same key that was in the same set *)
Lemma partition_spec args keys σ ch σ' : SW σ -> NoDup args -> length keys = length args -> partition args keys σ = Some (ch, σ') ->
  SW σ' /\ ext σ σ' args /\ (ch = false -> σ' = σ) /\
  forall i a, args !! i = Some a -> marked σ' a /\ exists j, args !! j = Some (lead σ' a) /\ keys !! j = keys !! i /\ cmap σ !! lead σ' a = cmap σ !! a.
Proof.
  intros Hw Hn Hl. unfold partition. destruct (foldl _ _ _) as [[new' σ1]|] eqn:E; cbn [mbind option_bind]; [|done]. intros [= <- <-].
  assert (Hz : (zip args keys).*1 = args) by (apply fst_zip; lia).
  assert (Hp : pinv σ [] [] σ). { split; [done | apply ext_refl | by intros ?? ?%elem_of_nil | by intros ??? ?%elem_of_nil | done | done]. }
  pose proof (pinv_fold _ _ [] _ _ _ _ Hp ltac:(rewrite app_nil_l, Hz; done) E) as [H1 H2 H3 H4 H5 H6]. rewrite app_nil_l in *. rewrite Hz in H2. split; [done|]. split; [done|]. split.
  - intros Hb%negb_false_iff%bool_decide_eq_true. auto.
  - intros i a Hi. destruct (lookup_lt_is_Some_2 keys i) as [key Hk]; [apply lookup_lt_Some in Hi; lia|]. destruct (H3 a key) as (G1 & b & G2 & G3 & G4). { apply elem_of_list_lookup. exists i. apply lookup_zip_with_Some. eauto. }
    split; [done|]. apply elem_of_list_lookup in G2 as [j Hj]. apply lookup_zip_with_Some in Hj as (b' & k' & [= -> <-] & Hj & Hkj). exists j. rewrite G3. rewrite Hk. done.
Qed.
