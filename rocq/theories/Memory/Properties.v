(** * Properties of the memory normalizations *)
From stdpp Require Import tactics base list list_numbers numbers.
From Verif.Memory Require Import Model Spec Proofs ProofsMain ProofsAlloca.
Local Open Scope Z_scope.

(** ** C62: replacing an output by one that carries the same changes nothing else *)

Theorem divert_preserves {M} (E : env M) (x y z : out) :
  other_proper E → same E x y → same E z (divert_in x y z).
Proof. apply divert_same. Qed.

(** ** C63: merges and joins *)

Theorem merge_reduction_sound {M} (E : env M) order id fr ss l :
  (∀ k, order k ≡ₚ k) → other_known E → (∀ s, s ∈ ss → is_state E s) → race_free E ss →
  divert 1 (reduce_merge order fr ss) = Repl l →
  replaces E (outputs id OMerge ss 1) l.
Proof.
  intros Hord Hk Hst Hr. unfold reduce_merge, sequence, divert.
  destruct (single_operand ss) as [| |l1] eqn:H1; [done| |].
  2:{ destruct (bool_decide _); [|done]. intros [= <-]. eapply single_operand_correct; eauto. }
  destruct (merge_dup order fr ss) as [| |l2] eqn:H2; [done| |].
  2:{ destruct (bool_decide _); [|done]. intros [= <-]. by eapply merge_dup_correct. }
  destruct (merge_nested fr ss) as [| |l3] eqn:H3; [done| |].
  2:{ destruct (bool_decide _); [|done]. intros [= <-]. by eapply merge_nested_correct. }
  destruct (merge_split fr ss) as [| |l4] eqn:H4; [done|done|].
  destruct (bool_decide _); [|done]. intros [= <-]. by eapply merge_split_correct.
Qed.

Theorem merge_reduction_never_crashes order fr ss : divert 1 (reduce_merge order fr ss) ≠ Crash.
Proof.
  assert (H : reduce_merge order fr ss = Keep ∨ ∃ y, reduce_merge order fr ss = Repl [y]).
  { unfold reduce_merge, merge_dup, merge_nested, merge_split, single_operand.
    destruct ss as [|s [|s' ss]]; cbn [sequence].
    - by left.
    - right. by exists s.
    - destruct (bool_decide _); [|right; by eexists].
      destruct (bool_decide _); [|right; by eexists].
      destruct (bool_decide _); [by left|right; by eexists]. }
  destruct H as [-> | [y ->]]; done.
Qed.

Theorem join_reduction_sound {M} (E : env M) id fr ss l :
  other_known E → (∀ s, s ∈ ss → is_state E s) →
  divert 1 (reduce_join fr ss) = Repl l →
  replaces E (outputs id OJoin ss 1) l.
Proof.
  intros Hk Hst. unfold reduce_join, sequence, divert.
  destruct (single_operand ss) as [| |l1] eqn:H1; [done| |].
  2:{ destruct (bool_decide _); [|done]. intros [= <-]. eapply single_operand_correct; eauto. }
  destruct (join_dup fr ss) as [| |l2] eqn:H2; [done|done|].
  destruct (bool_decide _); [|done]. intros [= <-]. by eapply join_dup_correct.
Qed.

Theorem join_nested_sound {M} (E : env M) id fr ss l :
  join_nested fr ss = Repl l → replaces E (outputs id OJoin ss 1) l.
Proof. apply join_nested_correct. Qed.

(** The new node has no nested merge (join) among its operands. *)
Theorem nested_flattened o ss y : y ∈ collect o ss → is_op o y = false.
Proof. apply collect_flat. Qed.

Theorem join_not_equal_itself_refuted :
  ¬ (∀ x, x.1 = OMerge ∨ x.1 = OJoin → op_equal x x = true) ∧
  ¬ (∀ x y, op_equal x y = true → op_equal y x = true).
Proof.
  split.
  - intros H. specialize (H (OJoin, 2%nat) ltac:(by right)). done.
  - intros H. specialize (H (OJoin, 2%nat) (OMerge, 2%nat) eq_refl). done.
Qed.
(** The equality of merges is right. *)
Theorem merge_equal_iff n m : op_equal (OMerge, n) (OMerge, m) = true ↔ n = m.
Proof. simpl. rewrite bool_decide_eq_true. done. Qed.

(** ** C64: splits *)

Theorem split_reduction_sound_partial {M} (E : env M) id fr k s l :
  is_state E s → (∀ mid ms i, s ≠ Out mid OMerge ms i) →
  divert k (reduce_split fr k s) = Repl l →
  replaces E (outputs id (OSplit k) [s] k) l ∧ Forall (λ p, same E p.1 p.2) (split_nested fr k s).2.
Proof.
  intros Hst Hm Hd. split.
  - revert Hd. unfold reduce_split, sequence, divert.
    destruct (split_single k s) as [| |l1] eqn:H1; [done| |].
    2:{ destruct (bool_decide _); [|done]. intros [= <-]. by eapply split_single_correct. }
    destruct (split_nested fr k s) as [r d] eqn:H2. cbn [fst]. destruct r as [| |l2]; [done| |].
    2:{ destruct (bool_decide _); [|done]. intros [= <-]. by eapply split_nested_correct. }
    destruct (split_merge k s) as [| |l3] eqn:H3; [done|done|].
    unfold split_merge in H3. destruct s as [mid o ms i]. destruct o; try done. by destruct (Hm mid ms i).
  - destruct (split_nested fr k s) as [r d] eqn:H2. cbn [snd].
    destruct r as [| |l2].
    + unfold split_nested in H2. destruct s as [? o ops ?]. destruct o; try done. by destruct ops.
    + unfold split_nested in H2. destruct s as [? o ops ?]. destruct o; try (by injection H2 as <-).
      destruct ops; [by injection H2 as <-|done].
    + by eapply (split_nested_correct E id).
Qed.

(** A split of a merge: a byte is the same in the new state of a position if
    that position is the one of the merge that knows the byte best. *)
Theorem split_merge_sound_partial {M} (E : env M) id k s l i y b :
  split_merge k s = Repl l → l !! i = Some y → known (stv E y) →
  (∀ y', y' ∈ l → ((stv E y' b).1 < (stv E y b).1)%nat ∨ y' = y) →
  length l = k ∧ stv E (Out id (OSplit k) [s] i) b = stv E y b.
Proof.
  intros Hs Hi Hk Hmax. destruct (split_merge_correct E id k s l i y b Hs Hi Hmax) as [? ->]. split; [done|].
  unfold newer. cbn [fst]. destruct (Nat.ltb_spec 0 (stv E y b).1); [done|]. symmetry. apply Hk. lia.
Qed.

(** ** C65: load of a stored value, duplicate states *)

Theorem load_store_forwarding_sound {M} (E : env M) id t a ss l :
  (∀ s, s ∈ ss → is_state E s) → (∀ s, s ∈ ss → store_typed E s) →
  load_store t a ss = Repl l →
  replaces E (outputs id (OLoad t) (a :: ss) (1 + length ss)) l.
Proof. apply load_store_correct. Qed.

(** When it applies: the load and the store have the same address output, the
    same type, as many states, and every state of the load is one of the store. *)
Theorem load_store_forwarding_applies t a ss :
  (∃ l, load_store t a ss = Repl l) ↔
  ∃ sid v ss' , ss ≠ [] ∧ length ss' = length ss ∧
    ∀ s, s ∈ ss → ∃ j, s = Out sid (OStore t) (a :: v :: ss') j.
Proof.
  split.
  - intros [l H]. unfold load_store in H. destruct ss as [|[sid o ops i] ss0] eqn:Hss; [done|]. rewrite <- Hss in *.
    destruct o as [| | |t'|t'| | | | | |c|]; try done. destruct ops as [|a' [|v ss']]; try done.
    destruct (bool_decide (a = a')) eqn:Ha; [|done]. apply bool_decide_eq_true in Ha as <-.
    destruct (bool_decide (length ss' = length ss)) eqn:Hl; [|done]. apply bool_decide_eq_true in Hl.
    destruct (forallb _ ss) eqn:Hf; [|done].
    destruct (bool_decide (t = t')) eqn:Htt; [|done]. apply bool_decide_eq_true in Htt as <-.
    exists sid, v, ss'. split; [by rewrite Hss|]. split; [done|]. by apply owned_by.
  - intros (sid & v & ss' & Hne & Hl & Hall). destruct ss as [|s0 ss0] eqn:Hss; [done|]. rewrite <- Hss in *.
    destruct (Hall s0 ltac:(rewrite Hss; by left)) as [j ->].
    exists (v :: ss). unfold load_store. rewrite Hss at 1.
    rewrite !bool_decide_true by done.
    replace (forallb _ ss) with true; [done|]. symmetry. apply forallb_forall. intros s Hs.
    destruct (Hall s ltac:(by apply elem_of_list_In)) as [k ->]. by apply bool_decide_eq_true.
Qed.

Theorem load_duplicate_states_sound {M} (E : env M) id fr t a ss l :
  load_dup fr t a ss = Repl l →
  replaces E (outputs id (OLoad t) (a :: ss) (1 + length ss)) l.
Proof. apply load_dup_correct. Qed.
Theorem store_duplicate_states_sound {M} (E : env M) id fr t a v ss l :
  store_dup fr t a v ss = Repl l →
  replaces E (outputs id (OStore t) (a :: v :: ss) (length ss)) l.
Proof. apply store_dup_correct. Qed.

(** ** C66: loads from allocas *)

Theorem load_alloca_sound_partial {M} (E : env M) id fr t a ss l :
  alloca_sized E a → index_of a = 0%nat → fits t a →
  (∀ s, s ∈ ss → is_state E s) → (∀ s, s ∈ ss → alloca_sized E s) →
  ids_unique (a :: ss) → allocas_disjoint E →
  load_alloca fr t a ss = Repl l →
  ∃ v ls, l = v :: ls ∧ same E (Out id (OLoad t) (a :: ss) 0) v ∧ length ls = length ss ∧
    ∃ ss', ss ≡ₚ ss' ∧ Forall2 (same E) ss' ls.
Proof. apply load_alloca_correct. Qed.

Theorem load_store_state_sound_partial {M} (E : env M) id fr t a ss l :
  (∀ s, s ∈ ss → is_state E s) → race_free E ss →
  (∀ s x, s ∈ ss → reducible_state a s = true → in_range (adr M (vv E a)) (tsize t) x →
     (stv E s x).1 = 0%nat ∨ ∃ s', s' ∈ ss ∧ reducible_state a s' = false ∧ ((stv E s x).1 ≤ (stv E s' x).1)%nat) →
  load_store_state fr t a ss = Repl l →
  replaces E (outputs id (OLoad t) (a :: ss) (1 + length ss)) l.
Proof. apply load_store_state_correct. Qed.

(** The side condition holds when each dropped store is on its own alloca's chain. *)
Theorem load_store_state_own_chain_sound {M} (E : env M) id fr t a ss l :
  alloca_sized E a → index_of a = 0%nat → fits t a → allocas_disjoint E →
  (∀ s, s ∈ ss → is_state E s) → race_free E ss →
  (∀ s, s ∈ ss → reducible_state a s = true →
     ∃ bid bops, bid ≠ id_of a ∧ own_chain bid (asize E bid) bops s) →
  load_store_state fr t a ss = Repl l →
  replaces E (outputs id (OLoad t) (a :: ss) (1 + length ss)) l.
Proof.
  intros Hsz Hi Hf Hd Hst Hr Hown Hl.
  assert (Ha : is_alloca a = true).
  { unfold load_store_state in Hl. destruct (bool_decide _); [done|]. by destruct (is_alloca a). }
  eapply load_store_state_correct; [done..| |done]. intros s x Hs Hred Hx. left.
  destruct (Hown s Hs Hred) as (bid & bops & Hne & Hc).
  rewrite (own_chain_zero E bid (asize E bid) bops s x); [done..|].
  apply (Hd (id_of a)); [done|]. by apply (loaded_range E t).
Qed.

(** ** C67: the barrier in front of an address *)

Theorem load_barrier_sound {M} (E : env M) id fr t a ss l :
  load_barrier fr t a ss = Repl l →
  replaces E (outputs id (OLoad t) (a :: ss) (1 + length ss)) l.
Proof. apply load_barrier_correct. Qed.
Theorem store_barrier_sound {M} (E : env M) id fr t a v ss l :
  store_barrier fr t a v ss = Repl l →
  replaces E (outputs id (OStore t) (a :: v :: ss) (length ss)) l.
Proof. apply store_barrier_correct. Qed.

Lemma load_barrier_inv fr t a ss l : load_barrier fr t a ss = Repl l →
  ∃ bid b ops i, a = Out bid OBarrier (b :: ops) i ∧ in_bounds_check b (tsize t) = true.
Proof.
  unfold load_barrier. destruct a as [bid o ops i]. destruct o; try done. destruct ops as [|b ops]; [done|].
  destruct (in_bounds_check b (tsize t)) eqn:H; [|done]. intros _. by exists bid, b, ops, i.
Qed.
Lemma store_barrier_inv fr t a v ss l : store_barrier fr t a v ss = Repl l →
  ∃ bid b ops i, a = Out bid OBarrier (b :: ops) i ∧ in_bounds_check b (tsize t) = true.
Proof.
  unfold store_barrier. destruct a as [bid o ops i]. destruct o; try done. destruct ops as [|b ops]; [done|].
  destruct (in_bounds_check b (tsize t)) eqn:H; [|done]. intros _. by exists bid, b, ops, i.
Qed.
Lemma vv_barrier {M} (E : env M) bid b ops i : vv E (Out bid OBarrier (b :: ops) i) = vv E b.
Proof. done. Qed.

(** A barrier is only removed from accesses that lie within an object of known
    size - provided the constant offset is not negative. *)
Theorem barrier_removed_in_bounds_partial {M} (E : env M) fr t a v ss l :
  load_barrier fr t a ss = Repl l ∨ store_barrier fr t a v ss = Repl l →
  (trace_precise a).2 + Z.of_nat (tsize t) < 2 ^ 64 → 0 ≤ (trace_precise a).2 →
  ∃ base n, alloc_size base = Some n ∧ upstream a base ∧
    ∀ x, in_range (adr M (vv E a)) (tsize t) x → in_range (adr M (vv E base)) n x.
Proof.
  intros H Hof H0.
  assert (∃ bid b ops i, a = Out bid OBarrier (b :: ops) i ∧ in_bounds_check b (tsize t) = true)
    as (bid & b & ops & i & -> & Hc).
  { destruct H as [H|H]; [by eapply load_barrier_inv|by eapply store_barrier_inv]. }
  cbn [trace_precise] in *. destruct (trace_precise b) as [base off] eqn:Ht. cbn [snd] in *.
  pose proof Hc as Hc'. unfold in_bounds_check in Hc'. rewrite Ht in Hc'.
  destruct (alloc_size base) as [n|] eqn:Hn; [|done].
  exists base, n. split; [done|]. split.
  - apply (up_op _ _ _ _ b); [by left|]. clear -Ht. revert base off Ht.
    induction b as [id o ops i IH] using out_ind'. intros base off.
    destruct o as [| | |t|t| | | | | |c|]; try (intros [= <- <-]; constructor).
    + destruct ops as [|a ops]; [intros [= <- <-]; constructor|]. apply Forall_cons_1 in IH as [IH _].
      intros H. apply (up_op _ _ _ _ a); [by left|]. by eapply IH.
    + destruct c as [c|]; [|intros [= <- <-]; constructor].
      destruct ops as [|a ops]; [intros [= <- <-]; constructor|]. apply Forall_cons_1 in IH as [IH _].
      cbn [trace_precise]. destruct (trace_precise a) as [b' o'] eqn:Hta. intros [= <- <-].
      apply (up_op _ _ _ _ a); [by left|]. by eapply IH.
  - rewrite vv_barrier. by eapply guard_correct.
Qed.

(** ** C68: stores *)

Theorem store_mux_sound_partial {M} (E : env M) id fr t a v s l :
  (∀ mid ms i, s = Out mid OMerge ms i → ms ≠ []) →
  store_mux fr t a v [s] = Repl l → replaces E (outputs id (OStore t) [a; v; s] 1) l.
Proof. apply store_mux_correct. Qed.

(** With two or more states, all of them of the same merge, the results do not
    match the outputs of the store; without a state the assertion fails. *)
Theorem store_mux_crash nusers order fr t a v mid ms ss :
  (∀ s, s ∈ ss → ∃ i, s = Out mid OMerge ms i) → length ss ≠ 1%nat →
  divert (length ss) (reduce_store nusers order fr t a v ss) = Crash.
Proof.
  intros Hall Hl. destruct (decide (ss = [])) as [->|Hne]; [done|].
  assert (Hm : store_mux fr t a v ss = Repl [mk_merge (S fr) (mk_store fr t a v ms)]).
  { destruct ss as [|s0 ss0]; [done|]. destruct (Hall s0 ltac:(by left)) as [i ->].
    unfold store_mux. replace (forallb _ _) with true; [done|].
    symmetry. apply forallb_forall. intros s Hs. destruct (Hall s ltac:(by apply elem_of_list_In)) as [j ->].
    by apply bool_decide_eq_true. }
  unfold reduce_store, sequence. rewrite Hm. unfold divert. rewrite bool_decide_false; [done|].
  cbn [length]. lia.
Qed.

(** The bytes after the second of two stores to an address; the first is gone,
    so that fewer writes are known for them, but more than for any state the
    new store is given. *)
Theorem store_store_sound_partial {M} (E : env M) nusers id fr t a v ss l i :
  store_store nusers fr t a v ss = Repl l → (i < length ss)%nat →
  length l = length ss ∧ (∀ s, s ∈ ss → nusers s = 1%nat) ∧
  ∃ y s, l !! i = Some y ∧ is_state E y ∧ ss !! i = Some s ∧
    ∀ x, ((stv E y x).2 = (stv E (Out id (OStore t) (a :: v :: ss) i) x).2) ∧
         (¬ in_range (adr M (vv E a)) (tsize t) x → stv E y x = stv E (Out id (OStore t) (a :: v :: ss) i) x) ∧
         (in_range (adr M (vv E a)) (tsize t) x →
            ∀ s s0, s ∈ ss → store_state_input s = Some s0 → ((stv E s0 x).1 < (stv E y x).1)%nat).
Proof. apply store_store_correct. Qed.

(** The store to an alloca with other states: all its results together know
    the same; see below for which result is which. *)
Theorem store_alloca_sound_partial {M} (E : env M) nusers order id fr t a v ss l x :
  (∀ k, order k ≡ₚ k) → race_free E ss →
  alloca_sized E a → index_of a = 0%nat → fits t a →
  (∀ s x, s ∈ ss → ¬ state_of_alloca a s → in_range (adr M (alloc E (id_of a))) (asize E (id_of a)) x → (stv E s x).1 = 0%nat) →
  store_alloca nusers order fr t a v ss = Repl l →
  join (map (stv E) l) x = join (map (stv E) (outputs id (OStore t) (a :: v :: ss) (length ss))) x.
Proof. apply store_alloca_correct. Qed.

(** A store to an alloca whose address has no other user: only the alloca's own bytes change. *)
Theorem store_single_user_sound {M} (E : env M) nusers id t a v ss l i y :
  alloca_sized E a → index_of a = 0%nat → fits t a →
  (∀ s, s ∈ ss → is_state E s) →
  store_single_user nusers t a v ss = Repl l → l !! i = Some y →
  nusers a = 1%nat ∧ length l = length ss ∧ is_state E y ∧
  ∀ x, ¬ in_range (adr M (alloc E (id_of a))) (asize E (id_of a)) x →
       stv E y x = stv E (Out id (OStore t) (a :: v :: ss) i) x.
Proof. apply single_user_correct. Qed.

(** ** C69: lambda exits *)

Theorem exit_reduction_sound {M} (E : env M) id fr ss l :
  (∀ s, s ∈ ss → alloca_sized E s ∧ fits_store E s) →
  divert 1 (reduce_exit fr ss) = Repl l →
  ∃ y, l = [y] ∧ is_state E y ∧
    ∀ x, ¬ local_byte E x → stv E y x = stv E (Out id OLambdaExit ss 0) x.
Proof.
  intros Hf Hd.
  assert (Hl : ∃ f, l = [mk_exit fr (map f ss)] ∧ ∀ x, ¬ local_byte E x → ∀ s, s ∈ ss → stv E (f s) x = stv E s x).
  { revert Hd. unfold reduce_exit, sequence, divert, exit_load, exit_store, exit_alloca, exit_with.
    destruct (bool_decide (ss = map exit_load1 ss)).
    2:{ destruct (bool_decide _); [|done]. intros [= <-]. exists exit_load1. split; [done|]. intros. apply exit_load1_stv. }
    destruct (bool_decide (ss = map exit_store1 ss)).
    2:{ destruct (bool_decide _); [|done]. intros [= <-]. exists exit_store1. split; [done|]. intros x Hx s Hs.
        apply exit_store1_stv; [by apply Hf|done]. }
    destruct (bool_decide (ss = map (exit_alloca1 (S fr)) ss)); [done|].
    destruct (bool_decide _); [|done]. intros [= <-]. exists (exit_alloca1 (S fr)). split; [done|]. intros x Hx s Hs.
    apply exit_alloca1_stv; [by apply Hf|done]. }
  destruct Hl as (f & -> & Hfs). eexists. split; [done|]. split; [eexists; apply eval_exit|].
  intros x Hx. unfold stv at 1 2. unfold mk_exit. rewrite !eval_exit. cbn [stof].
  rewrite !join_jl, !map_map. f_equal. apply map_ext_in. intros s Hs. apply (Hfs x Hx). by apply elem_of_list_In.
Qed.

Theorem exit_reduction_never_crashes fr ss : divert 1 (reduce_exit fr ss) ≠ Crash.
Proof.
  assert (H : reduce_exit fr ss = Keep ∨ ∃ y, reduce_exit fr ss = Repl [y]).
  { unfold reduce_exit, exit_load, exit_store, exit_alloca, exit_with. cbn [sequence].
    destruct (bool_decide _); [|right; by eexists].
    destruct (bool_decide _); [|right; by eexists].
    destruct (bool_decide _); [by left|right; by eexists]. }
  destruct H as [-> | [y ->]]; done.
Qed.

(** The removal of an exit's own loads is exact. *)
Theorem exit_load_exact {M} (E : env M) id fr ss l :
  exit_load fr ss = Repl l → replaces E (outputs id OLambdaExit ss 1) l.
Proof.
  unfold exit_load, exit_with. destruct (bool_decide _); [done|]. intros [= <-].
  apply replaces_intro; [done|]. intros [|k] y; [|by destruct k]. intros [= <-].
  eapply same_ss; [apply eval_exit..|]. intros b. rewrite !join_jl, !map_map. f_equal.
  apply map_ext_in. intros s Hs. symmetry. apply exit_load1_stv.
Qed.

(** ** The reduction of a load as a whole *)

Theorem load_reduction_value_partial {M} (E : env M) id fr t a ss l :
  (∀ s, s ∈ ss → is_state E s) → (∀ s, s ∈ ss → store_typed E s) → (∀ s, s ∈ ss → alloca_sized E s) →
  alloca_sized E a → index_of a = 0%nat → fits t a →
  ids_unique (a :: ss) → allocas_disjoint E → race_free E ss →
  (∀ s, s ∈ ss → reducible_state a s = true →
     ∃ bid bops, bid ≠ id_of a ∧ own_chain bid (asize E bid) bops s) →
  divert (1 + length ss) (reduce_load fr t a ss) = Repl l →
  ∃ v ls, l = v :: ls ∧ same E (Out id (OLoad t) (a :: ss) 0) v ∧ length ls = length ss ∧
    ((∀ s, s ∈ ss → other_alloca a s = false) → replaces E (outputs id (OLoad t) (a :: ss) (1 + length ss)) l).
Proof.
  intros Hst Hty Hss Hsz Hi Hf Hu Hd Hr Hown Hred.
  assert (Hfin : replaces E (outputs id (OLoad t) (a :: ss) (1 + length ss)) l →
    ∃ v ls, l = v :: ls ∧ same E (Out id (OLoad t) (a :: ss) 0) v ∧ length ls = length ss ∧
    ((∀ s, s ∈ ss → other_alloca a s = false) → replaces E (outputs id (OLoad t) (a :: ss) (1 + length ss)) l)).
  { intros H. pose proof (Forall2_length _ _ _ H) as Hlen. unfold outputs in Hlen. rewrite map_length, seq_length in Hlen.
    destruct l as [|v ls]; [done|]. exists v, ls. split; [done|]. split; [|split; [simpl in Hlen; lia|done]].
    unfold replaces, outputs in H. simpl in H. by apply Forall2_cons_1 in H as [? _]. }
  revert Hred. unfold reduce_load, sequence, divert.
  destruct (load_store t a ss) as [| |l1] eqn:H1; [done| |].
  2:{ destruct (bool_decide _); [|done]. intros [= <-]. apply Hfin. by eapply load_store_correct. }
  destruct (load_alloca fr t a ss) as [| |l2] eqn:H2; [done| |].
  2:{ destruct (bool_decide _); [|done]. intros [= <-].
      destruct (load_alloca_correct E id fr t a ss l2) as (v & ls & -> & Hv & Hlen & _); [done..|].
      exists v, ls. split; [done|]. split; [done|]. split; [done|]. intros Hno. exfalso.
      unfold load_alloca in H2. destruct (is_alloca a && existsb (other_alloca a) ss) eqn:Hex; [|done].
      apply andb_prop in Hex as [_ Hex]. apply existsb_exists in Hex as (s & Hs & Ho).
      rewrite (Hno s) in Ho; [done|]. by apply elem_of_list_In. }
  destruct (load_dup fr t a ss) as [| |l3] eqn:H3; [done| |].
  2:{ destruct (bool_decide _); [|done]. intros [= <-]. apply Hfin. by eapply load_dup_correct. }
  destruct (load_store_state fr t a ss) as [| |l4] eqn:H4; [done| |].
  2:{ destruct (bool_decide _); [|done]. intros [= <-]. apply Hfin. by eapply load_store_state_own_chain_sound. }
  destruct (load_barrier fr t a ss) as [| |l5] eqn:H5; [done|done|].
  destruct (bool_decide _); [|done]. intros [= <-]. apply Hfin. by eapply load_barrier_correct.
Qed.

(** ** A machine, examples and counterexamples *)

(** Values are integers that are their own address; the first byte of their
    encoding is the value, the rest is zero. *)
Definition zenc (t : ty) (v : Z) : list Z := take (tsize t) (v :: repeat 0 (tsize t)).
Lemma zenc_length t v : length (zenc t v) = tsize t.
Proof. unfold zenc. rewrite take_length. cbn [length]. rewrite repeat_length. lia. Qed.
Lemma zdec_enc t v : (0 < tsize t)%nat → hd 0 (zenc t v) = v.
Proof. unfold zenc. intros H. destruct (tsize t); [lia|]. done. Qed.
Definition zmachine : machine :=
  Machine Z 0 (λ t _, (0 < tsize t)%nat) (λ v, v) (λ c v, v + c) zenc (λ _ bs, hd 0 bs)
    (λ c v, eq_refl) zenc_length zdec_enc.

(** Two allocas of 8 bytes at 100 and 200; other nodes: values are their index. *)
Definition zenv : env zmachine := {|
  other := λ id i _, if decide (id < 50)%nat then @SV zmachine (Z.of_nat id) else @SS zmachine (λ _, (0%nat, 0));
  object := λ id, 1000 * Z.of_nat id;
  alloc := λ id, 100 * Z.of_nat id;
  asize := λ id, if decide (id = 1%nat ∨ id = 2%nat) then 8%nat else 0%nat;
  garbage := λ _ _, 77 |}.
Definition t4 : ty := Ty 0 4.
Definition A1 := Out 1 (OAlloca 8) [] 0.   Definition S1 := Out 1 (OAlloca 8) [] 1.
Definition A2 := Out 2 (OAlloca 8) [] 0.   Definition S2 := Out 2 (OAlloca 8) [] 1.
Definition V7 := Out 7 OOther [] 0.        Definition V9 := Out 9 OOther [] 0.

Lemma zdisjoint : allocas_disjoint zenv.
Proof.
  intros i j x Hij. unfold in_range. simpl.
  destruct (decide (i = 1%nat ∨ i = 2%nat)) as [Hi|Hi]; destruct (decide (j = 1%nat ∨ j = 2%nat)) as [Hj|Hj]; lia.
Qed.
Lemma zproper : other_proper zenv.
Proof. intros id i es es' _. simpl. apply sem_eq_refl. Qed.
Lemma zknown : other_known zenv.
Proof. intros id i es. simpl. destruct (decide _); done. Qed.

(** store 7 to A1; load A1: the value 7 is forwarded. *)
Example load_store_ex :
  let s := Out 10 (OStore t4) [A1; V7; S1] 0 in
  load_store t4 A1 [s] = Repl [V7; s] ∧ store_typed zenv s ∧ is_state zenv s.
Proof. split; [by vm_compute|]. split; [eexists; split; [done|]; simpl; lia|by eexists]. Qed.

(** The states of a load are mixed up when a state of another alloca comes first. *)
Theorem load_alloca_states_refuted :
  ∃ (M : machine) (E : env M) id fr t a ss l,
    alloca_sized E a ∧ index_of a = 0%nat ∧ fits t a ∧ (∀ s, s ∈ ss → is_state E s) ∧
    (∀ s, s ∈ ss → alloca_sized E s) ∧ ids_unique (a :: ss) ∧ allocas_disjoint E ∧
    reduce_load fr t a ss = Repl l ∧ length l = (1 + length ss)%nat ∧
    ¬ replaces E (outputs id (OLoad t) (a :: ss) (1 + length ss)) l.
Proof.
  exists zmachine, zenv, 20%nat, 30%nat, t4, A1, [S2; S1], (mk_load 30 t4 A1 [S1] ++ [S2]).
  split; [done|]. split; [done|]. split. { intros sz [= <-]. simpl. lia. }
  split. { intros s Hs. apply elem_of_cons in Hs as [->|Hs%elem_of_list_singleton]; [|subst s]; by eexists. }
  split. { intros s Hs. apply elem_of_cons in Hs as [->|Hs%elem_of_list_singleton]; [|subst s]; done. }
  split. { intros x y Hx Hy. repeat (apply elem_of_cons in Hx as [->|Hx]); repeat (apply elem_of_cons in Hy as [->|Hy]); try done;
           by apply elem_of_nil in Hx || by apply elem_of_nil in Hy. }
  split; [apply zdisjoint|]. split; [by vm_compute|]. split; [done|].
  unfold replaces, outputs, mk_load. simpl. intros H. apply Forall2_cons_1 in H as [_ H]. apply Forall2_cons_1 in H as [H _].
  unfold same in H. specialize (H 100). by vm_compute in H.
Qed.

(** A load drops the state through which it depends on an earlier store to the same alloca:
    A1 := 7;  A2 := 9 (ordered after it);  load A1 with the states of the alloca and of the second store. *)
Theorem load_store_state_refuted :
  ∃ (M : machine) (E : env M) id fr t a ss l,
    alloca_sized E a ∧ index_of a = 0%nat ∧ fits t a ∧ (∀ s, s ∈ ss → is_state E s) ∧
    race_free E ss ∧ allocas_disjoint E ∧
    reduce_load fr t a ss = Repl l ∧
    ¬ replaces E (outputs id (OLoad t) (a :: ss) (1 + length ss)) l.
Proof.
  set (st1 := Out 10 (OStore t4) [A1; V7; S1] 0).
  set (st2 := Out 11 (OStore t4) [A2; V9; Out 12 OMerge [st1; S2] 0] 0).
  exists zmachine, zenv, 20%nat, 30%nat, t4, A1, [S1; st2], [Out 30 (OLoad t4) [A1; S1] 0; Out 30 (OLoad t4) [A1; S1] 1; st2].
  split; [done|]. split; [done|]. split. { intros sz [= <-]. simpl. lia. }
  split. { intros s Hs. apply elem_of_cons in Hs as [->|Hs%elem_of_list_singleton]; [|subst s]; by eexists. }
  split.
  { assert (H12 : ∀ x, (stv zenv S1 x).1 = (stv zenv st2 x).1 → stv zenv S1 x = stv zenv st2 x).
    { intros x. unfold st2. rewrite stv_store.
      change (vv zenv A2) with 200. change (vv zenv V9) with 9. cbn [map nth].
      assert (E1 : ¬ (100 ≤ x < 108) → stv zenv S1 x = zero).
      { intros Hn. apply alloca_outside; [done|]. unfold in_range. simpl. lia. }
      assert (E2 : ¬ (200 ≤ x < 208) → stv zenv S2 x = zero).
      { intros Hn. apply alloca_outside; [done|]. unfold in_range. simpl. lia. }
      assert (E1' : 100 ≤ x < 108 → stv zenv S1 x = (1%nat, 77)).
      { intros Hn. unfold stv, S1. simpl. unfold alloc_state. rewrite decide_True; [done|]. unfold in_range. simpl. lia. }
      assert (E2' : 200 ≤ x < 208 → stv zenv S2 x = (1%nat, 77)).
      { intros Hn. unfold stv, S2. simpl. unfold alloc_state. rewrite decide_True; [done|]. unfold in_range. simpl. lia. }
      assert (Em : stv zenv (Out 12 OMerge [st1; S2] 0) x = newer (newer zero (stv zenv st1 x)) (stv zenv S2 x)) by done.
      destruct (decide (in_range (adr zmachine 200) (length (enc zmachine t4 9)) x)) as [Hx|Hx].
      - rewrite write_in by done. unfold in_range in Hx. simpl in Hx. rewrite E1 by lia. done.
      - rewrite write_out by done. rewrite Em. unfold st1. rewrite stv_store.
        change (vv zenv A1) with 100. change (vv zenv V7) with 7. cbn [map nth].
        destruct (decide (in_range (adr zmachine 100) (length (enc zmachine t4 7)) x)) as [Hy|Hy].
        + rewrite write_in by done. unfold in_range in Hy. simpl in Hy. rewrite E1', E2 by lia.
          rewrite join_one; [rewrite E1' by lia; done|]. by apply eval_known, zknown.
        + rewrite write_out by done. destruct (decide (100 ≤ x < 108)) as [Hz|Hz].
          * rewrite E1', E2 by lia. done.
          * rewrite E1 by lia. destruct (decide (200 ≤ x < 208)) as [Hw|Hw].
            -- rewrite E2' by lia. done.
            -- rewrite E2 by lia. done. }
    intros s s' x Hs Hs'. apply elem_of_cons in Hs as [->|Hs%elem_of_list_singleton]; [|subst s];
      (apply elem_of_cons in Hs' as [->|Hs'%elem_of_list_singleton]; [|subst s']); intros Heq; try done.
    - by apply H12.
    - symmetry. by apply H12. }
  split; [apply zdisjoint|]. split; [by vm_compute|].
  unfold replaces, outputs. simpl. intros H. apply Forall2_cons_1 in H as [H _].
  unfold same in H. by vm_compute in H.
Qed.

(** The guard for removing a barrier lets an access before the object through. *)
Theorem barrier_negative_offset_refuted :
  ∃ (M : machine) (E : env M) fr t a ss l,
    load_barrier fr t a ss = Repl l ∧ store_barrier fr t a a ss ≠ Keep ∧
    (trace_precise a).1 = A1 ∧
    ∀ x, in_range (adr M (vv E a)) (tsize t) x → ¬ in_range (adr M (vv E A1)) 8 x.
Proof.
  exists zmachine, zenv, 30%nat, t4, (Out 12 OBarrier [Out 11 (OGep (Some (-4))) [A1] 0] 0), [S1].
  eexists. split; [by vm_compute|]. split; [by vm_compute|]. split; [done|].
  intros x. change (vv zenv A1) with 100.
  change (vv zenv (Out 12 OBarrier [Out 11 (OGep (Some (-4))) [A1] 0] 0)) with 96.
  unfold in_range. change (tsize t4) with 4%nat. cbn [adr zmachine]. lia.
Qed.

(** Two stores to the same address, the second on only one of the states of the
    first: what a later load of both reads depends on the removed order. *)
Theorem store_store_refuted :
  ∃ (E : env zmachine) nusers fr t a v ss old new ld,
    other_proper E ∧ other_known E ∧ store_store nusers fr t a v ss = Repl [new] ∧
    old = Out 11 (OStore t) (a :: v :: ss) 0 ∧
    vv E ld = 9 ∧ vv E (divert_in old new ld) = 7.
Proof.
  set (P := Out 60 OOther [] 0).
  set (st1 := Out 10 (OStore t4) [A1; V7; P; S1]).
  set (old := Out 11 (OStore t4) [A1; V9; st1 0%nat] 0).
  set (ld := Out 13 (OLoad t4) [A1; Out 12 OMerge [st1 1%nat; old] 0] 0).
  exists zenv, (λ _, 1%nat), 30%nat, t4, A1, V9, [st1 0%nat], old, (Out 30 (OStore t4) [A1; V9; P] 0), ld.
  split; [apply zproper|]. split; [apply zknown|]. split; [by vm_compute|]. split; [done|].
  split; by vm_compute.
Qed.

(** A store to an alloca with duplicate other states has fewer results than outputs. *)
Theorem store_alloca_duplicates_refuted :
  ∃ nusers order fr t a v ss, (∀ k, order k ≡ₚ k) ∧
    divert (length ss) (reduce_store nusers order fr t a v ss) = Crash ∧
    (∀ s, s ∈ ss → is_op OMerge s = false).
Proof.
  set (P := Out 60 OOther [] 0).
  exists (λ _, 1%nat), (λ k, k), 30%nat, t4, A1, V7, [S1; P; P].
  split; [done|]. split; [by vm_compute|].
  intros s Hs. apply elem_of_cons in Hs as [->|Hs]; [by vm_compute|].
  apply elem_of_cons in Hs as [->|Hs]; [by vm_compute|].
  apply elem_of_list_singleton in Hs as ->. by vm_compute.
Qed.

(** ... and which result takes the place of which output is up to the hash set:
    here in insertion order, the other state takes the place of the alloca's. *)
Theorem store_alloca_order_refuted :
  ∃ (E : env zmachine) nusers id fr t a v ss l,
    alloca_sized E a ∧ index_of a = 0%nat ∧ fits t a ∧
    reduce_store nusers (λ k, k) fr t a v ss = Repl l ∧ length l = length ss ∧
    ∃ y x, l !! 0%nat = Some y ∧ (stv E y x).1 = 0%nat ∧ stv E (Out id (OStore t) (a :: v :: ss) 0) x = (2%nat, 7).
Proof.
  set (P := Out 60 OOther [] 0).
  exists zenv, (λ _, 1%nat), 20%nat, 30%nat, t4, A1, V7, [S1; P], [P; Out 30 (OStore t4) [A1; V7; S1] 0].
  split; [done|]. split; [done|]. split. { intros sz [= <-]. simpl. lia. }
  split; [by vm_compute|]. split; [done|]. exists P, 100. split; [done|]. split; by vm_compute.
Qed.

(** A split of a merge: the states it returns know less than those it replaces. *)
Theorem split_merge_refuted :
  ∃ (E : env zmachine) id k s l, is_state E s ∧ other_known E ∧
    divert k (reduce_split 30 k s) = Repl l ∧ ¬ replaces E (outputs id (OSplit k) [s] k) l.
Proof.
  exists zenv, 20%nat, 2%nat, (Out 12 OMerge [S1; S2] 0), [S1; S2].
  split; [by eexists|]. split; [apply zknown|]. split; [by vm_compute|].
  unfold replaces, outputs. simpl. intros H. apply Forall2_cons_1 in H as [H _].
  unfold same in H. specialize (H 200). by vm_compute in H.
Qed.

(** The remaining hypotheses are met by non-trivial graphs. *)
Example own_chain_ex :
  own_chain 2 8 [] (Out 14 (OStore t4) [A2; V9; Out 13 (OLoad t4) [A2; Out 11 (OStore t4) [A2; V7; S2] 0] 1] 0).
Proof.
  repeat constructor; simpl; lia.
Qed.
Example load_store_state_ex :
  let st1 := Out 10 (OStore t4) [A1; V7; S1] 0 in let st2 := Out 11 (OStore t4) [A2; V9; S2] 0 in
  reduce_load 30 t4 A1 [st1; st2] =
    Repl [Out 30 (OLoad t4) [A1; st1] 0; Out 30 (OLoad t4) [A1; st1] 1; st2].
Proof. by vm_compute. Qed.
Example store_store_ex :
  let st1 := Out 10 (OStore t4) [A1; V7; S1] 0 in
  reduce_store (λ _, 1%nat) (λ k, k) 30 t4 A1 V9 [st1] = Repl [Out 30 (OStore t4) [A1; V9; S1] 0].
Proof. by vm_compute. Qed.
Example exit_ex :
  let st1 := Out 10 (OStore t4) [A1; V7; S1] 0 in
  reduce_exit 30 [Out 13 (OLoad t4) [A1; st1] 1; S2] = Repl [Out 30 OLambdaExit [st1; S2] 0] ∧
  reduce_exit 31 [st1; S2] = Repl [Out 31 OLambdaExit [S1; S2] 0] ∧
  reduce_exit 32 [S1; S2] = Repl [Out 32 OLambdaExit [Out 33 OUndef [] 0; Out 33 OUndef [] 0] 0] ∧
  fits_store zenv st1.
Proof.
  split; [by vm_compute|]. split; [by vm_compute|]. split; [by vm_compute|].
  intros _. split; [done|]. split; [done|]. intros sz [= <-]. simpl. lia.
Qed.
Example merge_ex :
  let P := Out 60 OOther [] 0 in
  reduce_merge (λ k, k) 30 [S1; P; S1] = Repl [Out 30 OMerge [S1; P] 0] ∧
  reduce_merge (λ k, k) 30 [S1; Out 12 OMerge [P; Out 13 OMerge [S2] 0] 0] = Repl [Out 30 OMerge [S1; P; S2] 0] ∧
  reduce_merge (λ k, k) 30 [S1; Out 14 (OSplit 3) [P] 2] = Repl [Out 30 OMerge [S1; P] 0] ∧
  (split_nested 30 2 (Out 14 (OSplit 3) [P] 2)).1 = Repl [Out 30 (OSplit 5) [P] 3; Out 30 (OSplit 5) [P] 4].
Proof. repeat split; by vm_compute. Qed.
Example barrier_ex :
  let b := Out 12 OBarrier [Out 11 (OGep (Some 4)) [A1] 0] 0 in
  reduce_load 30 t4 b [S1] = Repl (mk_load 30 t4 (Out 11 (OGep (Some 4)) [A1] 0) [S1]) ∧
  reduce_load 30 (Ty 1 5) b [S1] = Keep.
Proof. split; by vm_compute. Qed.
