(** * Proofs: the normalizations *)
From stdpp Require Import tactics base list list_numbers numbers.
From Verif.Memory Require Import Model Spec Proofs.
Local Open Scope Z_scope.

Section main.
Context {M : machine} (E : env M).
Notation eval := (eval E).
Notation stv := (stv E).
Notation vv := (vv E).
Notation same := (same E).

Lemma stv_store id t (a v : out) ss i b :
  stv (Out id (OStore t) (a :: v :: ss) i) b =
  write (adr M (vv a)) (enc M t (vv v)) (map stv ss) (nth i (map stv ss) bot) b.
Proof. unfold Spec.stv at 1. by rewrite eval_store. Qed.
Lemma stv_load id t (a : out) ss j b :
  stv (Out id (OLoad t) (a :: ss) (S j)) b = nth j (map stv ss) bot b.
Proof. unfold Spec.stv at 1. by rewrite eval_load_state. Qed.
Lemma same_ss (x y : out) (p q : state) : eval x = SS p → eval y = SS q → (∀ b, p b = q b) → same x y.
Proof. unfold Spec.same. intros -> -> H. done. Qed.
Lemma same_sv (x y : out) (p q : val M) : eval x = SV p → eval y = SV q → p = q → same x y.
Proof. unfold Spec.same. intros -> ->. done. Qed.
Lemma lookup_map_seq (f : nat → out) n i y : map f (seq 0 n) !! i = Some y → y = f i ∧ (i < n)%nat.
Proof.
  change (map f (seq 0 n)) with (f <$> seq 0 n). rewrite list_lookup_fmap.
  destruct (seq 0 n !! i) as [k|] eqn:Hk; [|done]. apply lookup_seq in Hk as [-> ?]. simpl. by intros [= <-].
Qed.
Lemma owned_by id o ops (ss : list out) :
  forallb (fun s => bool_decide (node_of s = (id, o, ops))) ss = true →
  ∀ s, s ∈ ss → ∃ j, s = Out id o ops j.
Proof.
  intros Hf s Hs. rewrite forallb_forall in Hf. specialize (Hf s ltac:(by apply elem_of_list_In)).
  apply bool_decide_eq_true in Hf. destruct s as [? ? ? j]. simpl in Hf. injection Hf as -> -> ->. by exists j.
Qed.

(** *** load after store *)
Lemma load_store_correct id t a ss l :
  (∀ s, s ∈ ss → is_state E s) → (∀ s, s ∈ ss → store_typed E s) →
  load_store t a ss = Repl l →
  replaces E (outputs id (OLoad t) (a :: ss) (1 + length ss)) l.
Proof.
  intros Hst Ht. unfold load_store. destruct ss as [|[sid o ops i] ss0] eqn:Hss; [done|]. rewrite <- Hss in *.
  destruct o as [| | |t'|t'| | | | | |c|]; try done.
  destruct ops as [|a' [|v ss']]; try done.
  destruct (bool_decide (a = a')) eqn:Ha; [|done]. apply bool_decide_eq_true in Ha as <-.
  destruct (bool_decide (length ss' = length ss)) eqn:Hl; [|done]. apply bool_decide_eq_true in Hl.
  destruct (forallb _ ss) eqn:Hf; [|done].
  destruct (bool_decide (t = t')) eqn:Htt; [|done]. apply bool_decide_eq_true in Htt as <-.
  cbn [andb]. intros [= <-].
  pose proof (owned_by _ _ _ _ Hf) as Hall.
  destruct (Ht (Out sid (OStore t) (a :: v :: ss') i)) as (w & Hv & Htyp).
  { rewrite Hss. by left. }
  assert (Hne : ss ≠ []) by (rewrite Hss; done).
  apply replaces_intro; [done|].
  intros k y Hy. destruct k as [|k].
  - simpl in Hy. injection Hy as <-. eapply same_sv; [apply eval_load_value|exact Hv|].
    rewrite <- (enc_length M t w) at 1.
    rewrite read_written; [by apply dec_enc|].
    intros x Hx. rewrite join_jl, map_map.
    assert (Hent : ∀ e, e ∈ map (λ s, stv s x) ss →
      e = (S (join (map stv ss') x).1, nth (Z.to_nat (x - adr M (vv a))) (enc M t w) 0)).
    { intros e He. apply elem_of_list_fmap in He as (s & -> & Hs). destruct (Hall s Hs) as [j ->].
      rewrite stv_store. unfold Spec.vv. rewrite Hv. cbn [valof]. by apply write_in. }
    destruct (jl_in (map (λ s, stv s x) ss)) as [Hz|Hin].
    + exfalso. destruct ss as [|s ss2]; [done|].
      assert (Hs : stv s x ∈ map (λ s, stv s x) (s :: ss2)) by by left.
      pose proof (jl_ge _ _ Hs) as Hge. rewrite Hz in Hge. rewrite (Hent _ Hs) in Hge. simpl in Hge. lia.
    + by rewrite (Hent _ Hin).
  - simpl in Hy. eapply same_ss; [apply eval_load_state|apply eval_is_state|].
    + apply Hst. by eapply elem_of_list_lookup_2.
    + intros b. by rewrite (stv_nth E _ _ _ Hy).
Qed.

(** *** duplicate states of loads and stores *)
Lemma load_dup_correct id fr t a ss l :
  load_dup fr t a ss = Repl l →
  replaces E (outputs id (OLoad t) (a :: ss) (1 + length ss)) l.
Proof.
  unfold load_dup. destruct (bool_decide _); [done|]. intros [= <-].
  apply replaces_intro; [cbn [length]; by rewrite map_length|].
  intros k y Hy. destruct k as [|k].
  - simpl in Hy. injection Hy as <-. eapply same_sv; [apply eval_load_value..|].
    f_equal. apply read_ext. intros x _. symmetry. apply dedup_join.
  - simpl in Hy. change (map ?f ss) with (f <$> ss) in Hy. rewrite list_lookup_fmap in Hy.
    destruct (ss !! k) as [s|] eqn:Hs; [|done]. simpl in Hy. injection Hy as <-.
    eapply same_ss; [apply eval_load_state..|]. intros b.
    rewrite (stv_nth E _ _ _ Hs), nth_index; [done|]. apply dedup_elem. by eapply elem_of_list_lookup_2.
Qed.
Lemma write_join_ext a bs (l k : list state) (s s' : state) :
  (∀ x, join l x = join k x) → (∀ x, s x = s' x) → ∀ x, write a bs l s x = write a bs k s' x.
Proof. intros H H' x. unfold write. destruct (decide _); [|done]. by rewrite H. Qed.
Lemma store_dup_correct id fr t a v ss l :
  store_dup fr t a v ss = Repl l →
  replaces E (outputs id (OStore t) (a :: v :: ss) (length ss)) l.
Proof.
  unfold store_dup. destruct (bool_decide _); [done|]. intros [= <-].
  apply replaces_intro; [by rewrite map_length|].
  intros k y Hy. change (map ?f ss) with (f <$> ss) in Hy. rewrite list_lookup_fmap in Hy.
  destruct (ss !! k) as [s|] eqn:Hs; [|done]. simpl in Hy. injection Hy as <-.
  eapply same_ss; [apply eval_store..|]. apply write_join_ext.
  - intros x. symmetry. apply dedup_join.
  - intros b. rewrite (stv_nth E _ _ _ Hs), nth_index; [done|]. apply dedup_elem. by eapply elem_of_list_lookup_2.
Qed.

(** *** barriers *)
Lemma load_barrier_correct id fr t a ss l :
  load_barrier fr t a ss = Repl l →
  replaces E (outputs id (OLoad t) (a :: ss) (1 + length ss)) l.
Proof.
  unfold load_barrier. destruct a as [aid o ops i]. destruct o; try done. destruct ops as [|b ops]; [done|].
  destruct (in_bounds_check _ _); [|done]. intros [= <-].
  apply replaces_intro; [unfold mk_load; by rewrite map_length, seq_length|].
  intros k y [-> Hk]%lookup_map_seq. destruct k as [|k].
  - eapply same_sv; [apply eval_load_value..|]. done.
  - eapply same_ss; [apply eval_load_state..|]. done.
Qed.
Lemma store_barrier_correct id fr t a v ss l :
  store_barrier fr t a v ss = Repl l →
  replaces E (outputs id (OStore t) (a :: v :: ss) (length ss)) l.
Proof.
  unfold store_barrier. destruct a as [aid o ops i]. destruct o; try done. destruct ops as [|b ops]; [done|].
  destruct (in_bounds_check _ _); [|done]. intros [= <-].
  apply replaces_intro; [unfold mk_store; by rewrite map_length, seq_length|].
  intros k y [-> Hk]%lookup_map_seq. eapply same_ss; [apply eval_store..|]. done.
Qed.

(** What the tracing finds. *)
Lemma trace_vv x : adr M (vv (trace x)) = adr M (vv x).
Proof.
  induction x as [id o ops i IH] using out_ind'. destruct o as [| | |t|t| | | | | |c|]; try done.
  destruct ops as [|a ops]; [done|]. apply Forall_cons_1 in IH as [IH _]. cbn [trace]. rewrite IH. done.
Qed.
Lemma trace_precise_vv x base off : trace_precise x = (base, off) →
  adr M (vv x) = adr M (vv base) + off.
Proof.
  revert base off. induction x as [id o ops i IH] using out_ind'. intros base off.
  destruct o as [| | |t|t| | | | | |c|]; try (intros [= <- <-]; lia).
  - destruct ops as [|a ops]; [intros [= <- <-]; lia|]. apply Forall_cons_1 in IH as [IH _]. cbn [trace_precise].
    intros H. rewrite <- (IH _ _ H). done.
  - destruct c as [c|]; [|intros [= <- <-]; lia]. destruct ops as [|a ops]; [intros [= <- <-]; lia|].
    apply Forall_cons_1 in IH as [IH _]. cbn [trace_precise].
    destruct (trace_precise a) as [base' off'] eqn:Ht. intros [= <- <-]. specialize (IH _ _ eq_refl).
    transitivity (adr M (gep M c (vv a))); [done|]. rewrite adr_gep, IH. lia.
Qed.

Lemma guard_correct b sz base off n :
  in_bounds_check b sz = true → trace_precise b = (base, off) → alloc_size base = Some n →
  0 ≤ off → off + Z.of_nat sz < 2 ^ 64 →
  ∀ x, in_range (adr M (vv b)) sz x → in_range (adr M (vv base)) n x.
Proof.
  unfold in_bounds_check. intros H Ht Hn Ho Hof x Hx. rewrite Ht, Hn in H.
  rewrite (Z.mod_small off) in H by lia. rewrite Z.mod_small in H by lia. apply Z.leb_le in H.
  pose proof (trace_precise_vv _ _ _ Ht). unfold in_range in *. lia.
Qed.

(** *** merges and joins *)
Lemma single_operand_correct id o ss l :
  o = OMerge ∨ o = OJoin → other_known E → (∀ s, s ∈ ss → is_state E s) →
  single_operand ss = Repl l → replaces E (outputs id o ss 1) l.
Proof.
  intros Ho Hk Hst. unfold single_operand. destruct ss as [|s [|]]; try done. intros [= <-].
  apply replaces_intro; [done|]. intros [|k] y; [|by destruct k]. intros [= <-].
  eapply same_ss; [|apply eval_is_state, Hst; by left|].
  { destruct Ho as [-> | ->]; [apply eval_merge|apply eval_join]. }
  intros b. apply join_one. by apply eval_known.
Qed.
Lemma join_perm (ss ss' : list out) x : (∀ s, s ∈ ss ↔ s ∈ ss') → race_free E ss →
  join (map stv ss) x = join (map stv ss') x.
Proof.
  intros Hp Hr. rewrite !join_jl, !map_map. apply jl_set.
  - intros e He. left. apply elem_of_list_fmap in He as (s & -> & Hs). apply elem_of_list_fmap. exists s.
    split; [done|]. by apply Hp.
  - intros e He. left. apply elem_of_list_fmap in He as (s & -> & Hs). apply elem_of_list_fmap. exists s.
    split; [done|]. by apply Hp.
  - intros e e' He He'. apply elem_of_list_fmap in He as (s & -> & Hs). apply elem_of_list_fmap in He' as (s' & -> & Hs').
    apply Hr; by apply Hp.
Qed.
Lemma merge_dup_correct order id fr ss l :
  (∀ k, order k ≡ₚ k) → race_free E ss →
  merge_dup order fr ss = Repl l → replaces E (outputs id OMerge ss 1) l.
Proof.
  intros Hord Hr. unfold merge_dup. destruct (bool_decide _); [done|]. intros [= <-].
  apply replaces_intro; [done|]. intros [|k] y; [|by destruct k]. intros [= <-].
  eapply same_ss; [apply eval_merge..|]. intros b. apply join_perm; [|done].
  intros s. rewrite (Hord (dedup ss)). by rewrite dedup_elem.
Qed.
Lemma join_dup_correct id fr ss l :
  other_known E → (∀ s, s ∈ ss → is_state E s) →
  join_dup fr ss = Repl l → replaces E (outputs id OJoin ss 1) l.
Proof.
  intros Hk Hst. unfold join_dup. destruct (bool_decide _); [done|].
  assert (Hgen : same (Out id OJoin ss 0) (mk_join fr (dedup ss))).
  { eapply same_ss; [apply eval_join..|]. intros b. symmetry. apply dedup_join. }
  intros Hr. assert (∃ y, l = [y] ∧ same (Out id OJoin ss 0) y) as (y & -> & Hy).
  { destruct (dedup ss) as [|s [|s' new]] eqn:Hd.
    - injection Hr as <-. eauto.
    - injection Hr as <-. exists s. split; [done|]. eapply sem_eq_trans; [exact Hgen|].
      eapply same_ss; [apply eval_join|apply eval_is_state, Hst|].
      + apply dedup_elem. rewrite Hd. by left.
      + intros b. apply join_one. by apply eval_known.
    - injection Hr as <-. eauto. }
  apply replaces_intro; [done|]. intros [|k] z; [|by destruct k]. intros [= <-]. done.
Qed.

Lemma jl_flat (f : out → list out) (ss : list out) b :
  (∀ s, s ∈ ss → jl (map (λ s, stv s b) (f s)) = newer zero (stv s b)) →
  jl (map (λ s, stv s b) (flat_map f ss)) = jl (map (λ s, stv s b) ss).
Proof.
  induction ss as [|s ss IH]; [done|]. intros H. cbn [flat_map map].
  rewrite map_app, jl_app, jl_cons, IH by (intros; apply H; by right). rewrite (H s) by (by left). done.
Qed.
Lemma newer_zero_join ss b : newer zero (join ss b) = join ss b.
Proof.
  unfold newer. cbn [fst]. destruct (Nat.ltb_spec 0 (join ss b).1) as [?|Hn]; [done|].
  symmetry. apply join_known. lia.
Qed.
Lemma collect1_join o x b : o = OMerge ∨ o = OJoin →
  jl (map (λ s, stv s b) (collect1 o x)) = newer zero (stv x b).
Proof.
  intros Ho. induction x as [id o' ops i IH] using out_ind'. cbn [collect1].
  destruct (bool_decide (o = o')) eqn:Heq; [|done]. apply bool_decide_eq_true in Heq as <-.
  rewrite (jl_flat (collect1 o)).
  - assert (Hs : stv (Out id o ops i) b = join (map stv ops) b).
    { unfold Spec.stv at 1. destruct Ho as [-> | ->]; [by rewrite eval_merge|by rewrite eval_join]. }
    rewrite Hs, newer_zero_join, join_jl, map_map. done.
  - rewrite List.Forall_forall in IH. intros s Hs. apply IH. by apply elem_of_list_In.
Qed.
Lemma collect_join o ss b : o = OMerge ∨ o = OJoin →
  join (map stv (collect o ss)) b = join (map stv ss) b.
Proof.
  intros Ho. rewrite !join_jl, !map_map. unfold collect. apply jl_flat. intros s _. by apply collect1_join.
Qed.
Lemma merge_nested_correct id fr ss l :
  merge_nested fr ss = Repl l → replaces E (outputs id OMerge ss 1) l.
Proof.
  unfold merge_nested. destruct (bool_decide _); [done|]. intros [= <-].
  apply replaces_intro; [done|]. intros [|k] y; [|by destruct k]. intros [= <-].
  eapply same_ss; [apply eval_merge..|]. intros b. symmetry. apply collect_join. by left.
Qed.
Lemma join_nested_correct id fr ss l :
  join_nested fr ss = Repl l → replaces E (outputs id OJoin ss 1) l.
Proof.
  unfold join_nested. destruct (bool_decide _); [done|]. intros [= <-].
  apply replaces_intro; [done|]. intros [|k] y; [|by destruct k]. intros [= <-].
  eapply same_ss; [apply eval_join..|]. intros b. symmetry. apply collect_join. by right.
Qed.
(** After flattening no operand is a merge (a join). *)
Lemma collect1_flat o x y : y ∈ collect1 o x → is_op o y = false.
Proof.
  induction x as [id o' ops i IH] using out_ind'. cbn [collect1].
  destruct (bool_decide (o = o')) eqn:Heq.
  - intros Hy. apply elem_of_list_In, in_flat_map in Hy as (s & Hs & Hy). rewrite List.Forall_forall in IH.
    apply (IH s); [done|]. by apply elem_of_list_In.
  - intros ->%elem_of_list_singleton. exact Heq.
Qed.
Lemma collect_flat o ss y : y ∈ collect o ss → is_op o y = false.
Proof.
  intros Hy. apply elem_of_list_In, in_flat_map in Hy as (s & Hs & Hy).
  apply (collect1_flat o s). by apply elem_of_list_In.
Qed.

Lemma through_split_stv s : (∀ b, stv (through_split s) b = stv s b).
Proof.
  destruct s as [id o ops i]. destruct o; try done. destruct ops as [|x ops]; done.
Qed.
Lemma merge_split_correct id fr ss l :
  merge_split fr ss = Repl l → replaces E (outputs id OMerge ss 1) l.
Proof.
  unfold merge_split. destruct (bool_decide _); [done|]. intros [= <-].
  apply replaces_intro; [done|]. intros [|k] y; [|by destruct k]. intros [= <-].
  eapply same_ss; [apply eval_merge..|]. intros b. apply join_ext.
  clear. induction ss as [|s ss IH]; simpl; constructor; [|done]. intros x. symmetry. apply through_split_stv.
Qed.

(** *** splits *)
Lemma split_single_correct id k s l :
  is_state E s → split_single k s = Repl l → replaces E (outputs id (OSplit k) [s] k) l.
Proof.
  intros Hst. unfold split_single. destruct (bool_decide (k = 1%nat)) eqn:Hk; [|done].
  apply bool_decide_eq_true in Hk as ->. intros [= <-].
  apply replaces_intro; [done|]. intros [|j] y; [|by destruct j]. intros [= <-].
  eapply same_ss; [done|by apply eval_is_state|]. done.
Qed.
Lemma split_nested_correct id fr k s l d :
  split_nested fr k s = (Repl l, d) →
  replaces E (outputs id (OSplit k) [s] k) l ∧ Forall (λ p, same p.1 p.2) d.
Proof.
  unfold split_nested. destruct s as [sid o ops i]. destruct o; try done. destruct ops as [|x ops]; [done|].
  intros [= <- <-]. split.
  - apply replaces_intro.
    + unfold mk_split. rewrite drop_length, map_length, seq_length. lia.
    + intros j y Hy. rewrite lookup_drop in Hy. apply lookup_map_seq in Hy as [-> _].
      eapply same_ss; [done..|]. done.
  - rewrite List.Forall_forall. intros [p q] Hpq. apply elem_of_list_In, elem_of_list_lookup_1 in Hpq as [j Hj].
    apply lookup_zip_with_Some in Hj as (p' & q' & Heq & Hp & Hq). injection Heq as -> ->.
    apply lookup_map_seq in Hp as [-> _]. apply lookup_map_seq in Hq as [-> _].
    eapply same_ss; [done..|]. done.
Qed.
Lemma split_merge_correct id k s l i y b :
  split_merge k s = Repl l → l !! i = Some y →
  (∀ y', y' ∈ l → ((stv y' b).1 < (stv y b).1)%nat ∨ y' = y) →
  length l = k ∧ stv (Out id (OSplit k) [s] i) b = newer zero (stv y b).
Proof.
  unfold split_merge. destruct s as [sid o ms j]. destruct o; try done.
  destruct (bool_decide (length ms = k)) eqn:Hk; [|done]. apply bool_decide_eq_true in Hk. intros [= <-] Hy Hmax.
  split; [done|].
  transitivity (join (map stv ms) b). { unfold Spec.stv at 1. simpl. by rewrite map_stv. }
  assert (Hyin : y ∈ ms) by by eapply elem_of_list_lookup_2.
  rewrite join_jl, map_map.
  destruct (jl_in (map (λ s, stv s b) ms)) as [Hz|Hin].
  - pose proof (jl_ge (map (λ s, stv s b) ms) (stv y b)) as Hge.
    rewrite Hz in Hge. rewrite Hz. unfold newer. cbn [fst] in *.
    assert ((stv y b).1 ≤ 0)%nat. { apply Hge. apply elem_of_list_fmap. by exists y. }
    destruct (Nat.ltb_spec 0 (stv y b).1); [lia|done].
  - apply elem_of_list_fmap in Hin as (y' & Heq & Hin). rewrite Heq.
    assert ((stv y b).1 ≤ (stv y' b).1)%nat.
    { rewrite <- Heq. apply jl_ge. apply elem_of_list_fmap. by exists y. }
    destruct (Hmax y' Hin) as [?| ->]; [lia|].
    unfold newer. cbn [fst]. destruct (Nat.ltb_spec 0 (stv y b).1); [done|].
    rewrite <- Heq. apply jl_version_zero. rewrite Heq. lia.
Qed.

End main.
