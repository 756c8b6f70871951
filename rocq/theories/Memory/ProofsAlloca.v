(** * Proofs: stores, allocas and lambda exits *)
From stdpp Require Import tactics base list list_numbers numbers.
From Verif.Memory Require Import Model Spec Proofs ProofsMain.
Local Open Scope Z_scope.

Section main.
Context {M : machine} (E : env M).
Notation eval := (eval E).
Notation stv := (stv E).
Notation vv := (vv E).
Notation same := (same E).

(** *** store of a merge *)
Lemma jl_const (l : list (nat * Z)) e : l ≠ [] → (0 < e.1)%nat → (∀ e', e' ∈ l → e' = e) → jl l = e.
Proof.
  intros Hne Hp H. destruct (jl_in l) as [Hz|Hin]; [|by apply H].
  destruct l as [|e0 l]; [done|]. pose proof (jl_ge (e0 :: l) e0 ltac:(by left)) as Hge.
  rewrite Hz in Hge. rewrite (H e0) in Hge by (by left). simpl in Hge. lia.
Qed.
Lemma store_mux_correct id fr t a v s l :
  (∀ mid ms i, s = Out mid OMerge ms i → ms ≠ []) →
  store_mux fr t a v [s] = Repl l → replaces E (outputs id (OStore t) [a; v; s] 1) l.
Proof.
  intros Hne. unfold store_mux. destruct s as [mid o ms i]. destruct o; try done.
  specialize (Hne _ _ _ eq_refl).
  destruct (forallb _ _); [|done]. intros [= <-].
  apply replaces_intro; [done|]. intros [|k] y; [|by destruct k]. intros [= <-].
  eapply same_ss; [apply eval_store|apply eval_merge|]. intros x. cbn [map nth].
  assert (Hm : ∀ x, stv (Out mid OMerge ms i) x = join (map stv ms) x).
  { intros z. unfold Spec.stv at 1. by rewrite eval_merge. }
  unfold mk_store. rewrite join_jl, !map_map.
  destruct (decide (in_range (adr M (vv a)) (length (enc M t (vv v))) x)) as [Hin|Hout].
  - rewrite write_in by done. symmetry. apply jl_const.
    + destruct ms; [done|]. done.
    + simpl. lia.
    + intros e' He'. apply elem_of_list_fmap in He' as (j & -> & _). rewrite stv_store, write_in by done.
      f_equal. f_equal. f_equal. rewrite join_one; [by rewrite Hm|].
      intros z. rewrite Hm. apply join_known.
  - rewrite write_out by done. rewrite Hm, join_jl, map_map. f_equal.
    apply nth_ext with (d := zero) (d' := zero).
    { by rewrite !map_length, seq_length. }
    intros n Hn. rewrite map_length in Hn.
    rewrite (nth_indep _ _ (stv (Out 0 OUndef [] 0) x)) by (by rewrite map_length).
    rewrite (map_nth (λ s, stv s x)).
    rewrite (nth_indep (map _ (seq _ _)) _ (stv (Out fr (OStore t) (a :: v :: ms) 0) x)) by (by rewrite map_length, seq_length).
    rewrite (map_nth (λ j, stv (Out fr (OStore t) (a :: v :: ms) j) x)), seq_nth by done.
    rewrite stv_store, write_out by done. simpl.
    rewrite (nth_indep _ _ (stv (Out 0 OUndef [] 0))) by (by rewrite map_length).
    by rewrite map_nth.
Qed.

(** *** store after store *)
Lemma store_store_correct nusers id fr t a v ss l i :
  store_store nusers fr t a v ss = Repl l → (i < length ss)%nat →
  length l = length ss ∧ (∀ s, s ∈ ss → nusers s = 1%nat) ∧
  ∃ y s, l !! i = Some y ∧ is_state E y ∧ ss !! i = Some s ∧
    ∀ x, ((stv y x).2 = (stv (Out id (OStore t) (a :: v :: ss) i) x).2) ∧
         (¬ in_range (adr M (vv a)) (tsize t) x → stv y x = stv (Out id (OStore t) (a :: v :: ss) i) x) ∧
         (in_range (adr M (vv a)) (tsize t) x →
            ∀ s s0, s ∈ ss → store_state_input s = Some s0 → ((stv s0 x).1 < (stv y x).1)%nat).
Proof.
  unfold store_store. destruct ss as [|[sid o ops j] ss0] eqn:Hss; [done|]. rewrite <- Hss in *.
  destruct o as [| | |t1|t1| | | | | |c|]; try done. destruct ops as [|a1 [|v1 ss1]]; try done.
  destruct (bool_decide (trace a1 = trace a)) eqn:Ha; [|done]. apply bool_decide_eq_true in Ha. cbn [negb].
  destruct (forallb _ ss) eqn:Hf; [|done].
  destruct (bool_decide (tsize t < tsize t1)%nat) eqn:Hsz; [done|]. apply bool_decide_eq_false in Hsz.
  destruct (mapM store_state_input ss) as [new|] eqn:Hnew; [|done]. intros [= <-] Hi.
  apply mapM_Some_1 in Hnew. pose proof (Forall2_length _ _ _ Hnew) as Hlen.
  assert (Hall : ∀ s, s ∈ ss → ∃ j, s = Out sid (OStore t1) (a1 :: v1 :: ss1) j).
  { apply owned_by. rewrite forallb_forall in Hf |- *. intros s Hs. specialize (Hf s Hs).
    by apply andb_prop in Hf as [? _]. }
  assert (Hadr : adr M (vv a1) = adr M (vv a)) by (by rewrite <- (trace_vv E a1), Ha, trace_vv).
  split. { unfold mk_store. rewrite map_length, seq_length. done. }
  split. { intros s Hs. rewrite forallb_forall in Hf. specialize (Hf s ltac:(by apply elem_of_list_In)).
           apply andb_prop in Hf as [_ Hf]. by apply bool_decide_eq_true in Hf. }
  destruct (lookup_lt_is_Some_2 ss i Hi) as [s Hs].
  destruct (lookup_lt_is_Some_2 new i ltac:(lia)) as [s0 Hs0].
  exists (Out fr (OStore t) (a :: v :: new) i), s. split.
  { unfold mk_store. change (map ?f ?l) with (f <$> l). rewrite list_lookup_fmap, lookup_seq_lt by lia. done. }
  split; [eexists; apply eval_store|]. split; [done|]. intros x. rewrite !stv_store.
  pose proof (enc_length M t (vv v)) as Hel. pose proof (enc_length M t1 (vv v1)) as Hel1.
  destruct (Hall s ltac:(by eapply elem_of_list_lookup_2)) as [k ->].
  pose proof (Forall2_lookup_lr _ _ _ _ _ _ Hnew Hs Hs0) as Hk. simpl in Hk.
  assert (Hout : ¬ in_range (adr M (vv a)) (tsize t) x →
    write (adr M (vv a)) (enc M t (vv v)) (map stv new) (nth i (map stv new) bot) x =
    write (adr M (vv a)) (enc M t (vv v)) (map stv ss) (nth i (map stv ss) bot) x).
  { intros Hn. rewrite !write_out by (by rewrite Hel).
    rewrite (stv_nth E _ _ _ Hs), (stv_nth E _ _ _ Hs0), stv_store, write_out.
    - by rewrite (stv_nth E _ _ _ Hk).
    - rewrite Hel1, Hadr. unfold in_range in *. lia. }
  split; [|split; [exact Hout|]].
  - destruct (decide (in_range (adr M (vv a)) (tsize t) x)) as [Hx|Hx]; [|by rewrite Hout].
    rewrite !write_in by (by rewrite Hel). done.
  - intros Hx s' s0' Hs' Hin. rewrite write_in by (by rewrite Hel). cbn [fst].
    assert (Hnin : s0' ∈ new).
    { apply elem_of_list_lookup_1 in Hs' as [m Hm]. destruct (Forall2_lookup_l _ _ _ _ _ Hnew Hm) as (z & Hz & Hz').
      rewrite Hin in Hz'. injection Hz' as <-. by eapply elem_of_list_lookup_2. }
    pose proof (join_in (map stv new) (stv s0') x ltac:(apply elem_of_list_fmap; by exists s0')). lia.
Qed.

(** *** the store to an alloca without another user *)
Lemma single_user_correct nusers id t a v ss l i y :
  alloca_sized E a → index_of a = 0%nat → (∀ sz, alloc_size a = Some sz → (tsize t ≤ sz)%nat) →
  (∀ s, s ∈ ss → is_state E s) →
  store_single_user nusers t a v ss = Repl l → l !! i = Some y →
  nusers a = 1%nat ∧ length l = length ss ∧ is_state E y ∧
  ∀ x, ¬ in_range (adr M (alloc E (id_of a))) (asize E (id_of a)) x →
       stv y x = stv (Out id (OStore t) (a :: v :: ss) i) x.
Proof.
  intros Hsz Hidx Hfit Hst. unfold store_single_user.
  destruct a as [aid o aops ai]. destruct o; try done. cbn [is_alloca negb]. simpl in Hidx, Hsz. subst ai sz.
  destruct (bool_decide (nusers _ = 1%nat)) eqn:Hu; [|done]. apply bool_decide_eq_true in Hu. cbn [negb].
  intros [= <-] Hy. split; [done|]. split; [done|]. split; [apply Hst; by eapply elem_of_list_lookup_2|].
  intros x Hx. rewrite stv_store, write_out.
  - by rewrite (stv_nth E _ _ _ Hy).
  - rewrite enc_length. change (vv (Out aid (OAlloca (asize E aid)) aops 0)) with (alloc E aid).
    specialize (Hfit _ eq_refl). unfold in_range in *. cbn [id_of] in Hx. lia.
Qed.

(** *** loads from allocas *)
Lemma jl_filter (f : out → bool) (ss : list out) x :
  (∀ s, s ∈ ss → f s = false → (stv s x).1 = 0%nat) →
  jl (map (λ s, stv s x) (List.filter f ss)) = jl (map (λ s, stv s x) ss).
Proof.
  induction ss as [|s ss IH]; [done|]. intros H. cbn [List.filter map].
  specialize (IH ltac:(intros; apply H; [by right|done])).
  destruct (f s) eqn:Hf.
  - cbn [map]. by rewrite !jl_cons, IH.
  - rewrite jl_cons, IH. rewrite (newer_absorb zero (stv s x)).
    + unfold newer. cbn [fst]. destruct (Nat.ltb_spec 0 (jl (map (λ s0, stv s0 x) ss)).1); [done|].
      apply jl_version_zero. lia.
    + rewrite H; [done|by left|done].
Qed.

Lemma alloca_outside id sz ops i x : sz = asize E id →
  ¬ in_range (adr M (alloc E id)) (asize E id) x → stv (Out id (OAlloca sz) ops i) x = zero.
Proof.
  intros -> Hx. unfold Spec.stv. simpl. destruct (decide (i = 0%nat)); [done|]. simpl. unfold alloc_state.
  by rewrite decide_False.
Qed.

Lemma other_alloca_outside a s x :
  alloca_sized E a → alloca_sized E s → index_of a = 0%nat → is_alloca a = true →
  ids_unique [a; s] → allocas_disjoint E → other_alloca a s = true →
  in_range (adr M (alloc E (id_of a))) (asize E (id_of a)) x → stv s x = zero.
Proof.
  intros Ha Hs Hi Hal Hu Hd Ho Hx. unfold other_alloca in Ho. apply andb_prop in Ho as [Hsa Hne].
  destruct s as [sid o sops si]. destruct o; try done. apply alloca_outside; [exact Hs|].
  apply (Hd (id_of a)); [|done]. intros Heq.
  assert (Hn : node_of a = node_of (Out sid (OAlloca sz) sops si)).
  { apply Hu; [by left|right; by left|exact Heq]. }
  rewrite bool_decide_true in Hne by done. done.
Qed.

Lemma loaded_range t a x : alloca_sized E a → index_of a = 0%nat → is_alloca a = true → fits t a →
  in_range (adr M (vv a)) (tsize t) x → in_range (adr M (alloc E (id_of a))) (asize E (id_of a)) x.
Proof.
  intros Hs Hi Ha Hf Hx. destruct a as [id o ops i]. destruct o; try done. simpl in Hs, Hi. subst.
  specialize (Hf _ eq_refl). change (vv (Out id (OAlloca (asize E id)) ops 0)) with (alloc E id) in Hx.
  unfold in_range in *. cbn [id_of]. lia.
Qed.

Lemma load_alloca_correct id fr t a ss l :
  alloca_sized E a → index_of a = 0%nat → fits t a →
  (∀ s, s ∈ ss → is_state E s) → (∀ s, s ∈ ss → alloca_sized E s) →
  ids_unique (a :: ss) → allocas_disjoint E →
  load_alloca fr t a ss = Repl l →
  ∃ v ls, l = v :: ls ∧ same (Out id (OLoad t) (a :: ss) 0) v ∧ length ls = length ss ∧
    ∃ ss', ss ≡ₚ ss' ∧ Forall2 same ss' ls.
Proof.
  intros Hsz Hi Hf Hst Hss Hu Hd. unfold load_alloca.
  destruct (is_alloca a) eqn:Ha; [|done]. destruct (existsb _ ss); [|done]. cbn [andb]. intros [= <-].
  set (kept := List.filter (λ s, negb (other_alloca a s)) ss).
  set (drp := List.filter (other_alloca a) ss).
  assert (Hperm : ss ≡ₚ kept ++ drp).
  { subst kept drp. clear. induction ss as [|s ss IH]; [done|]. cbn [List.filter].
    destruct (other_alloca a s); cbn [negb].
    - rewrite <- Permutation_middle. by constructor.
    - simpl. by constructor. }
  unfold mk_load. cbn [seq map app]. eexists _, _. split; [done|]. split; [|split].
  - eapply same_sv; [apply eval_load_value..|]. f_equal. apply read_ext. intros x Hx.
    rewrite !join_jl, !map_map. symmetry. apply jl_filter. intros s Hs Hn.
    apply negb_false_iff in Hn. rewrite (other_alloca_outside a s x); auto.
    + intros y z Hy Hz. apply Hu; [clear -Hy Hs|clear -Hz Hs].
      * apply elem_of_cons in Hy as [->|Hy]; [by left|]. apply elem_of_list_singleton in Hy as ->. by right.
      * apply elem_of_cons in Hz as [->|Hz]; [by left|]. apply elem_of_list_singleton in Hz as ->. by right.
    + by apply (loaded_range t).
  - rewrite app_length, map_length, seq_length, Hperm, app_length. done.
  - exists (kept ++ drp). split; [done|]. apply Forall2_app.
    + apply Forall2_same_length_lookup_2; [by rewrite map_length, seq_length|].
      intros i x y Hx Hy. change (map ?f ?l) with (f <$> l) in Hy. rewrite list_lookup_fmap in Hy.
      destruct (seq 1 (length kept) !! i) as [n|] eqn:Hn; [|done]. apply lookup_seq in Hn as [-> Hn].
      simpl in Hy. injection Hy as <-.
      eapply same_ss; [apply eval_is_state, Hst|apply eval_load_state|].
      * rewrite Hperm, elem_of_app. left. by eapply elem_of_list_lookup_2.
      * intros b. by rewrite (stv_nth E _ _ _ Hx).
    + clear. generalize (drp). intros k. induction k; constructor; [apply same_refl|done].
Qed.

Lemma hand_out_same fr t a ss pre n :
  (∀ s, s ∈ ss → is_state E s) → n = length (List.filter (λ s, negb (reducible_state a s)) ss) →
  Forall2 same ss
    (hand_out a ss (map (λ i, Out fr (OLoad t) (a :: pre ++ List.filter (λ s, negb (reducible_state a s)) ss) (1 + i))
                        (seq (length pre) n))).
Proof.
  revert pre n. induction ss as [|s ss IH]; intros pre n Hst ->; [constructor|].
  cbn [hand_out List.filter]. destruct (reducible_state a s) eqn:Hr; cbn [negb].
  - constructor; [apply same_refl|]. apply IH; [|done]. intros; apply Hst; by right.
  - cbn [length seq map]. constructor.
    + eapply same_ss; [apply eval_is_state, Hst; by left|apply eval_load_state|].
      intros b. rewrite (stv_nth E _ _ s); [done|]. by rewrite list_lookup_middle.
    + specialize (IH (pre ++ [s]) _ ltac:(intros; apply Hst; by right) eq_refl).
      rewrite <- app_assoc in IH. cbn [app] in IH. rewrite app_length, Nat.add_comm in IH. exact IH.
Qed.

Lemma load_store_state_correct id fr t a ss l :
  (∀ s, s ∈ ss → is_state E s) → race_free E ss →
  (∀ s x, s ∈ ss → reducible_state a s = true → in_range (adr M (vv a)) (tsize t) x →
     (stv s x).1 = 0%nat ∨ ∃ s', s' ∈ ss ∧ reducible_state a s' = false ∧ ((stv s x).1 ≤ (stv s' x).1)%nat) →
  load_store_state fr t a ss = Repl l →
  replaces E (outputs id (OLoad t) (a :: ss) (1 + length ss)) l.
Proof.
  intros Hst Hr Hold. unfold load_store_state. destruct (bool_decide _); [done|].
  destruct (negb (is_alloca a)); [done|]. destruct (_ || _); [done|]. intros [= <-].
  pose proof (hand_out_same fr t a ss [] _ Hst eq_refl) as Hh. cbn [app length] in Hh.
  set (new := List.filter (λ s, negb (reducible_state a s)) ss) in *.
  assert (Hnew : ∀ s, s ∈ new ↔ s ∈ ss ∧ reducible_state a s = false).
  { intros s. unfold new. rewrite !elem_of_list_In, filter_In, negb_true_iff. done. }
  apply replaces_intro. { cbn [length]. f_equal. symmetry. exact (Forall2_length _ _ _ Hh). }
  intros [|k] y Hy.
  - simpl in Hy. injection Hy as <-. eapply same_sv; [apply eval_load_value..|]. f_equal. apply read_ext.
    intros x Hx. rewrite !join_jl, !map_map. symmetry. apply jl_set.
    + intros e He. left. apply elem_of_list_fmap in He as (s & -> & Hs). apply elem_of_list_fmap. exists s.
      split; [done|]. by apply Hnew in Hs as [? _].
    + intros e He. apply elem_of_list_fmap in He as (s & -> & Hs).
      destruct (reducible_state a s) eqn:Hred.
      * right. destruct (Hold s x Hs Hred Hx) as [->|(s' & Hs' & Hred' & Hle)]; [lia|].
        pose proof (jl_ge (map (λ s, stv s x) new) (stv s' x)) as Hge.
        assert ((stv s' x).1 ≤ (jl (map (λ s, stv s x) new)).1)%nat; [|lia]. apply Hge.
        apply elem_of_list_fmap. exists s'. split; [done|]. by apply Hnew.
      * left. apply elem_of_list_fmap. exists s. split; [done|]. by apply Hnew.
    + intros e e' He He'. apply elem_of_list_fmap in He as (s & -> & Hs).
      apply elem_of_list_fmap in He' as (s' & -> & Hs'). by apply Hr.
  - simpl in Hy. destruct (Forall2_lookup_r _ _ _ _ _ Hh Hy) as (s & Hs & Hsy).
    eapply sem_eq_trans; [|exact Hsy].
    eapply same_ss; [apply eval_load_state|apply eval_is_state, Hst; by eapply elem_of_list_lookup_2|].
    intros b. by rewrite (stv_nth E _ _ _ Hs).
Qed.

(** The own chain of an alloca knows nothing about other memory. *)
Lemma own_chain_zero bid sz bops s x : sz = asize E bid → own_chain bid sz bops s →
  ¬ in_range (adr M (alloc E bid)) (asize E bid) x → stv s x = zero.
Proof.
  intros Hsz Hown Hx. revert Hown. induction s as [id o ops i IH] using out_ind'. intros Hown.
  rewrite List.Forall_forall in IH.
  assert (Hnth : ∀ ss i, (∀ s, s ∈ ss → s ∈ ops) → Forall (own_chain bid sz bops) ss →
    nth i (map stv ss) bot x = zero).
  { intros ss j Hsub Hall. destruct (decide (j < length ss)%nat) as [Hj|Hj].
    - destruct (lookup_lt_is_Some_2 ss j Hj) as [s Hs]. rewrite (stv_nth E _ _ _ Hs).
      assert (Hin : s ∈ ss) by by eapply elem_of_list_lookup_2.
      apply IH; [apply elem_of_list_In; by apply Hsub|]. rewrite List.Forall_forall in Hall. apply Hall.
      by apply elem_of_list_In.
    - rewrite nth_overflow; [done|]. rewrite map_length. lia. }
  inversion Hown; subst.
  - by apply alloca_outside.
  - rewrite stv_load. apply Hnth; [|done]. intros s Hs. by right.
  - rewrite stv_store, write_out.
    + apply Hnth; [|done]. intros s Hs. right. by right.
    + rewrite enc_length. change (vv (Out bid (OAlloca (asize E bid)) bops 0)) with (alloc E bid).
      unfold in_range in *. lia.
Qed.

(** *** lambda exits *)
Lemma exit_load1_stv s x : stv (exit_load1 s) x = stv s x.
Proof.
  destruct s as [id o ops i]. destruct o; try done. destruct ops as [|a ss]; [done|]. destruct i as [|j]; [done|].
  cbn [exit_load1]. destruct (is_alloca a); [|done]. destruct (ss !! j) as [s|] eqn:Hs; [|done].
  cbn [default]. rewrite stv_load. by rewrite (stv_nth E _ _ _ Hs).
Qed.
Lemma exit_store1_stv s x : fits_store E s → ¬ local_byte E x → stv (exit_store1 s) x = stv s x.
Proof.
  intros Hf Hx. destruct s as [id o ops i]. destruct o as [| | |t|t| | | | | |c|]; try done. destruct ops as [|a [|v ss]]; try done.
  cbn [exit_store1]. destruct (is_alloca a) eqn:Ha; [|done]. destruct (ss !! i) as [s|] eqn:Hs; [|done].
  cbn [default]. rewrite stv_store, write_out.
  - by rewrite (stv_nth E _ _ _ Hs).
  - rewrite enc_length. intros Hin. apply Hx. destruct (Hf Ha) as (H1 & H2 & H3).
    exists (id_of a). by apply (loaded_range t).
Qed.
Lemma exit_alloca1_stv ud s x : alloca_sized E s → ¬ local_byte E x → stv (exit_alloca1 ud s) x = stv s x.
Proof.
  intros Hs Hx. unfold exit_alloca1. destruct s as [id o ops i]. destruct o; try done. cbn [is_alloca].
  rewrite alloca_outside; [done|exact Hs|]. intros Hin. apply Hx. by exists id.
Qed.
Lemma exit_with_correct f id fr ss l x :
  (∀ s, s ∈ ss → stv (f s) x = stv s x) → exit_with f fr ss = Repl l →
  ∃ y, l = [y] ∧ is_state E y ∧ stv y x = stv (Out id OLambdaExit ss 0) x.
Proof.
  intros Hf. unfold exit_with. destruct (bool_decide _); [done|]. intros [= <-]. eexists. split; [done|].
  split; [eexists; apply eval_exit|]. unfold Spec.stv at 1 2. unfold mk_exit. rewrite !eval_exit. cbn [stof].
  rewrite !join_jl, !map_map. f_equal. apply map_ext_in. intros s Hs. apply Hf. by apply elem_of_list_In.
Qed.

(** *** store to an alloca with other states *)
Lemma store_alloca_correct nusers order id fr t a v ss l x :
  (∀ k, order k ≡ₚ k) → race_free E ss →
  alloca_sized E a → index_of a = 0%nat → fits t a →
  (∀ s x, s ∈ ss → ¬ state_of_alloca a s → in_range (adr M (alloc E (id_of a))) (asize E (id_of a)) x → (stv s x).1 = 0%nat) →
  store_alloca nusers order fr t a v ss = Repl l →
  join (map stv l) x = join (map stv (outputs id (OStore t) (a :: v :: ss) (length ss))) x.
Proof.
  intros Hord Hr Hsz Hi Hfit Hoth. unfold store_alloca. destruct (bool_decide _); [done|].
  pose proof (loaded_range t a x Hsz Hi) as Hrange.
  destruct a as [aid o aops ai]. destruct o; try done. simpl in Hsz, Hi. subst ai sz.
  specialize (Hrange eq_refl Hfit). cbn [id_of] in *.
  set (st := Out aid (OAlloca (asize E aid)) aops 1) in *.
  set (a := Out aid (OAlloca (asize E aid)) aops 0) in *.
  destruct (bool_decide (st ∈ ss)) eqn:Hin; [|done]. apply bool_decide_eq_true in Hin.
  destruct (bool_decide (nusers st = 1%nat)); [|done]. cbn [andb]. intros [= <-].
  set (rest := List.filter _ _).
  assert (Hrest : ∀ s, s ∈ rest ↔ s ∈ ss ∧ s ≠ st).
  { intros s. unfold rest. rewrite elem_of_list_In, filter_In, <- elem_of_list_In, dedup_elem, negb_true_iff, bool_decide_eq_false. done. }
  assert (Hlen : (0 < length ss)%nat). { destruct ss; [by apply elem_of_nil in Hin|simpl; lia]. }
  assert (Hnode : ∀ s, s ≠ st → ¬ state_of_alloca a s).
  { intros [sid so sops si] Hne [Hn Hs1]. simpl in Hn, Hs1. injection Hn as -> -> ->. subst si. done. }
  assert (Hst0 : ∀ y, stv st y = alloc_state E aid (asize E aid) y) by done.
  assert (Hstk : known (stv st)). { intros y. rewrite Hst0. unfold alloc_state. destruct (decide _); done. }
  unfold mk_store. cbn [length seq map].
  set (new := Out fr (OStore t) [a; v; st] 0).
  assert (Hnewl : ∀ s, s ∈ order (rest ++ [new]) ↔ s ∈ rest ∨ s = new).
  { intros s. rewrite (Hord (rest ++ [new])), elem_of_app, elem_of_list_singleton. done. }
  rewrite !join_jl, !map_map.
  unfold outputs. rewrite map_map.
  destruct (decide (in_range (adr M (vv a)) (tsize t) x)) as [Hx|Hx].
  - specialize (Hrange Hx).
    assert (Hjoin : join (map stv ss) x = stv st x).
    { rewrite join_jl, map_map. destruct (jl_in (map (λ s, stv s x) ss)) as [Hz|Hm].
      - exfalso. pose proof (jl_ge (map (λ s, stv s x) ss) (stv st x)) as Hge. rewrite Hz in Hge.
        assert ((stv st x).1 ≤ 0)%nat as Hle. { apply Hge. apply elem_of_list_fmap. by exists st. }
        rewrite Hst0 in Hle. unfold alloc_state in Hle. rewrite decide_True in Hle by done. simpl in Hle. lia.
      - apply elem_of_list_fmap in Hm as (s & Heq & Hs). rewrite Heq.
        destruct (decide (s = st)) as [->|Hne]; [done|]. exfalso.
        pose proof (Hoth s x Hs (Hnode _ Hne) Hrange) as Hz.
        pose proof (jl_ge (map (λ s, stv s x) ss) (stv st x)) as Hge. rewrite Heq, Hz in Hge.
        assert ((stv st x).1 ≤ 0)%nat as Hle. { apply Hge. apply elem_of_list_fmap. by exists st. }
        rewrite Hst0 in Hle. unfold alloc_state in Hle. rewrite decide_True in Hle by done. simpl in Hle. lia. }
    transitivity (S (stv st x).1, nth (Z.to_nat (x - adr M (vv a))) (enc M t (vv v)) 0).
    + assert (Hnew : stv new x = (S (stv st x).1, nth (Z.to_nat (x - adr M (vv a))) (enc M t (vv v)) 0)).
      { unfold new. rewrite stv_store, write_in by (by rewrite enc_length). cbn [map]. by rewrite join_one. }
      pose proof (jl_ge (map (λ s, stv s x) (order (rest ++ [new]))) (stv new x)) as Hge.
      assert (Hnin : stv new x ∈ map (λ s, stv s x) (order (rest ++ [new]))).
      { apply elem_of_list_fmap. exists new. split; [done|]. apply Hnewl. by right. }
      specialize (Hge Hnin).
      destruct (jl_in (map (λ s, stv s x) (order (rest ++ [new])))) as [Hz|Hm].
      * rewrite Hz, Hnew in Hge. simpl in Hge. lia.
      * apply elem_of_list_fmap in Hm as (s & Heq & Hs). rewrite Heq.
        apply Hnewl in Hs as [Hs| ->]; [|done]. apply Hrest in Hs as [Hs Hne].
        pose proof (Hoth s x Hs (Hnode _ Hne) Hrange) as Hz. rewrite Heq, Hz, Hnew in Hge. simpl in Hge. lia.
    + symmetry. apply jl_const.
      * destruct (length ss); [lia|done].
      * simpl. lia.
      * intros e He. apply elem_of_list_fmap in He as (j & -> & _). rewrite stv_store, write_in by (by rewrite enc_length).
        by rewrite Hjoin.
  - assert (Hold : map (λ i, stv (Out id (OStore t) (a :: v :: ss) i) x) (seq 0 (length ss)) = map (λ s, stv s x) ss).
    { apply nth_ext with (d := zero) (d' := zero); [by rewrite !map_length, seq_length|].
      intros n Hn. rewrite map_length, seq_length in Hn.
      rewrite (nth_indep _ _ (stv (Out id (OStore t) (a :: v :: ss) 0) x)) by (by rewrite map_length, seq_length).
      rewrite (map_nth (λ i, stv (Out id (OStore t) (a :: v :: ss) i) x)), seq_nth by done.
      rewrite stv_store, write_out by (by rewrite enc_length). simpl.
      destruct (lookup_lt_is_Some_2 ss n Hn) as [s Hs]. rewrite (stv_nth E _ _ _ Hs).
      symmetry. apply nth_lookup_Some. change (map ?f ?l) with (f <$> l). by rewrite list_lookup_fmap, Hs. }
    rewrite Hold.
    assert (Hnew : stv new x = stv st x).
    { unfold new. rewrite stv_store, write_out by (by rewrite enc_length). done. }
    apply jl_set.
    + intros e He. left. apply elem_of_list_fmap in He as (s & -> & Hs). apply Hnewl in Hs as [Hs| ->].
      * apply elem_of_list_fmap. exists s. split; [done|]. by apply Hrest in Hs as [? _].
      * rewrite Hnew. apply elem_of_list_fmap. by exists st.
    + intros e He. left. apply elem_of_list_fmap in He as (s & -> & Hs).
      destruct (decide (s = st)) as [->|Hne].
      * rewrite <- Hnew. apply elem_of_list_fmap. exists new. split; [done|]. apply Hnewl. by right.
      * apply elem_of_list_fmap. exists s. split; [done|]. apply Hnewl. left. by apply Hrest.
    + intros e e' He He'. apply elem_of_list_fmap in He as (s & -> & Hs).
      apply elem_of_list_fmap in He' as (s' & -> & Hs'). by apply Hr.
Qed.

End main.
