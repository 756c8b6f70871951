(** * Proofs: joins, reads and writes, congruence *)
From stdpp Require Import tactics base list list_numbers numbers.
From Verif.Memory Require Import Model Spec.
Local Open Scope Z_scope.

Notation zero := (0%nat, 0).

Lemma newer_assoc a b c : newer (newer a b) c = newer a (newer b c).
Proof.
  unfold newer.
  destruct (Nat.ltb_spec a.1 b.1) as [H1|H1]; destruct (Nat.ltb_spec b.1 c.1) as [H2|H2]; simpl;
    repeat match goal with |- context [(?x <? ?y)%nat] => destruct (Nat.ltb_spec x y) end;
    try reflexivity; lia.
Qed.
Lemma newer_zero a : newer a zero = a.
Proof. unfold newer. simpl. destruct (Nat.ltb_spec a.1 0); [lia|done]. Qed.
Lemma newer_absorb a b : (b.1 ≤ a.1)%nat → newer a b = a.
Proof. unfold newer. intros H. destruct (Nat.ltb_spec a.1 b.1); [lia|done]. Qed.
Lemma newer_le_l a b : (a.1 ≤ (newer a b).1)%nat.
Proof. unfold newer. destruct (Nat.ltb_spec a.1 b.1); lia. Qed.
Lemma newer_le_r a b : (b.1 ≤ (newer a b).1)%nat.
Proof. unfold newer. destruct (Nat.ltb_spec a.1 b.1); lia. Qed.

Definition jl (l : list (nat * Z)) : nat * Z := fold_left newer l zero.

Lemma fold_newer l a : fold_left newer l a = newer a (jl l).
Proof.
  unfold jl. induction l as [|e l IH] using rev_ind; simpl; [by rewrite newer_zero|].
  rewrite !fold_left_app. simpl. rewrite IH. apply newer_assoc.
Qed.
Lemma jl_cons e l : jl (e :: l) = newer (newer zero e) (jl l).
Proof. unfold jl. simpl. apply fold_newer. Qed.
Lemma jl_app l k : jl (l ++ k) = newer (jl l) (jl k).
Proof. unfold jl at 1. rewrite fold_left_app. apply fold_newer. Qed.
Lemma jl_snoc l e : jl (l ++ [e]) = newer (jl l) e.
Proof. unfold jl. by rewrite fold_left_app. Qed.
Lemma jl_ge l e : e ∈ l → (e.1 ≤ (jl l).1)%nat.
Proof.
  induction l as [|x l IH] using rev_ind; [by intros ?%elem_of_nil|].
  rewrite jl_snoc, elem_of_app, elem_of_list_singleton. intros [H| ->].
  - specialize (IH H). pose proof (newer_le_l (jl l) x). lia.
  - apply newer_le_r.
Qed.
Lemma jl_in l : jl l = zero ∨ jl l ∈ l.
Proof.
  induction l as [|x l IH] using rev_ind; [by left|].
  rewrite jl_snoc. unfold newer at 1 2. destruct (Nat.ltb_spec (jl l).1 x.1).
  - right. rewrite elem_of_app, elem_of_list_singleton. by right.
  - destruct IH as [IH|IH]; [by left|]. right. rewrite elem_of_app. by left.
Qed.
Lemma jl_version_zero l : (jl l).1 = 0%nat → jl l = zero.
Proof.
  induction l as [|x l IH] using rev_ind; [done|]. rewrite jl_snoc.
  unfold newer. destruct (Nat.ltb_spec (jl l).1 x.1); [lia|done].
Qed.
(** The join depends only on the set of entries when ties agree. *)
Lemma jl_set l k :
  (∀ e, e ∈ l → e ∈ k ∨ e = zero) → (∀ e, e ∈ k → e ∈ l ∨ (e.1 ≤ (jl l).1)%nat) →
  (∀ e e', e ∈ k → e' ∈ k → e.1 = e'.1 → e = e') → jl l = jl k.
Proof.
  intros H1 H2 H3.
  assert (Hle : ((jl l).1 ≤ (jl k).1)%nat).
  { destruct (jl_in l) as [->|Hl]; [simpl; lia|]. destruct (H1 _ Hl) as [Hk| ->]; [|simpl; lia]. by apply jl_ge. }
  assert (Hge : ((jl k).1 ≤ (jl l).1)%nat).
  { destruct (jl_in k) as [->|Hk]; [simpl; lia|]. destruct (H2 _ Hk) as [Hl|?]; [|lia]. by apply jl_ge. }
  destruct (jl_in k) as [Hk|Hk].
  - rewrite Hk. apply jl_version_zero. rewrite Hk in Hge, Hle. simpl in *. lia.
  - destruct (jl_in l) as [Hl|Hl].
    + rewrite Hl. symmetry. apply jl_version_zero. rewrite Hl in Hge, Hle. simpl in *. lia.
    + destruct (H1 _ Hl) as [Hlk|Hz].
      * apply H3; [done..|lia].
      * rewrite Hz. symmetry. apply jl_version_zero. rewrite Hz in Hge, Hle. simpl in *. lia.
Qed.

Lemma join_jl ss x : join ss x = jl (map (λ s, s x) ss).
Proof. done. Qed.

Section sem.
Context {M : machine} (E : env M).

Notation eval := (eval E).
Notation stv := (stv E).
Notation vv := (vv E).
Notation same := (same E).

(** ** Equivalence *)
Lemma sem_eq_refl (p : sem M) : sem_eq p p.
Proof. by destruct p. Qed.
Lemma sem_eq_sym (p q : sem M) : sem_eq p q → sem_eq q p.
Proof. destruct p, q; simpl; intros H; try done. Qed.
Lemma sem_eq_trans (p q r : sem M) : sem_eq p q → sem_eq q r → sem_eq p r.
Proof. destruct p, q, r; simpl; intros H H1; try done; try congruence; intros x; by rewrite H, H1. Qed.
Lemma sem_eq_val (p q : sem M) : sem_eq p q → valof p = valof q.
Proof. by destruct p, q. Qed.
Lemma sem_eq_st (p q : sem M) : sem_eq p q → ∀ x, stof p x = stof q x.
Proof. by destruct p, q. Qed.
Lemma same_refl x : same x x.
Proof. apply sem_eq_refl. Qed.

Lemma join_ext (l k : list state) : Forall2 (λ s s', ∀ x, s x = s' x) l k → ∀ x, join l x = join k x.
Proof.
  intros H x. rewrite !join_jl. f_equal. induction H as [|s s' l k Hs _ IH]; simpl; [done|]. by rewrite Hs, IH.
Qed.
Lemma join_in (ss : list state) s x : s ∈ ss → ((s x).1 ≤ (join ss x).1)%nat.
Proof. intros H. rewrite join_jl. apply (jl_ge (map (λ s, s x) ss)). apply elem_of_list_fmap. by exists s. Qed.
Lemma join_one s x : known s → join [s] x = s x.
Proof.
  intros H. rewrite join_jl. unfold jl, newer. simpl.
  destruct (Nat.ltb_spec 0 (s x).1); [done|]. symmetry. apply H. lia.
Qed.
Lemma join_known ss : known (join ss).
Proof. intros x. rewrite join_jl. apply jl_version_zero. Qed.

Lemma write_ext a bs (l k : list state) (s s' : state) :
  Forall2 (λ s s', ∀ x, s x = s' x) l k → (∀ x, s x = s' x) →
  ∀ x, write a bs l s x = write a bs k s' x.
Proof.
  intros H H' x. unfold write. destruct (decide _); [|done]. by rewrite (join_ext _ _ H).
Qed.
Lemma read_ext a n (s s' : state) : (∀ x, in_range a n x → s x = s' x) → read a n s = read a n s'.
Proof.
  intros H. unfold read. apply map_ext_in. intros i [? Hi]%in_seq. rewrite H; [done|]. unfold in_range. lia.
Qed.
Lemma write_in a bs ss s x : in_range a (length bs) x →
  write a bs ss s x = (S (join ss x).1, nth (Z.to_nat (x - a)) bs 0).
Proof. intros H. unfold write. by rewrite decide_True. Qed.
Lemma write_out a bs ss s x : ¬ in_range a (length bs) x → write a bs ss s x = s x.
Proof. intros H. unfold write. by rewrite decide_False. Qed.
Lemma read_written a bs (s : state) :
  (∀ x, in_range a (length bs) x → (s x).2 = nth (Z.to_nat (x - a)) bs 0) → read a (length bs) s = bs.
Proof.
  intros H. unfold read.
  apply (nth_ext _ _ 0 0); [by rewrite map_length, seq_length|].
  intros n Hn. rewrite map_length, seq_length in Hn.
  rewrite (nth_indep _ 0 ((s (a + Z.of_nat 0)).2)) by (rewrite map_length, seq_length; lia).
  rewrite (map_nth (λ i, (s (a + Z.of_nat i)).2)). rewrite seq_nth by lia. simpl.
  rewrite H by (unfold in_range; lia). f_equal. lia.
Qed.

Lemma nth_forall2 (l k : list state) j : Forall2 (λ s s', ∀ x, s x = s' x) l k →
  ∀ x, nth j l bot x = nth j k bot x.
Proof. intros H. revert j. induction H as [|s s' l k Hs _ IH]; intros [|j] x; simpl; auto. Qed.

Lemma sem_snd (l k : list (sem M)) : Forall2 sem_eq l k →
  Forall2 (λ s s' : state, ∀ x, s x = s' x) (map stof l) (map stof k).
Proof. induction 1 as [|p q l k H _ IH]; simpl; constructor; [by apply sem_eq_st|done]. Qed.

(** Evaluation of a node only depends on what its operands evaluate to. *)
Lemma eval_cong id o ops ops' i : other_proper E → Forall2 same ops ops' →
  same (Out id o ops i) (Out id o ops' i).
Proof.
  intros Hp H. unfold Spec.same. simpl.
  assert (Hm : Forall2 sem_eq (map eval ops) (map eval ops')).
  { clear -H. induction H; simpl; constructor; done. }
  generalize dependent (map eval ops'). generalize (map eval ops). clear H ops ops'. intros es es' Hm.
  pose proof (Hp id i es es' Hm) as Ho. pose proof (sem_snd _ _ Hm) as Hs.
  destruct o as [| | |t|t| | | | | |c|]; try done; try (simpl; by apply join_ext).
  - destruct (decide _); done.
  - destruct Hm as [|a a' es es' Ha Hm]; [done|]. simpl in Hs. apply Forall2_cons_1 in Hs as [_ Hs].
    destruct i as [|j].
    + simpl. rewrite (sem_eq_val _ _ Ha). f_equal. apply read_ext. intros x _. by apply join_ext.
    + simpl. by apply nth_forall2.
  - destruct Hm as [|a a' es es' Ha Hm]; [done|]. destruct Hm as [|v v' es es' Hv Hm]; [done|].
    simpl in Hs. apply Forall2_cons_1 in Hs as [_ Hs]. apply Forall2_cons_1 in Hs as [_ Hs].
    simpl. rewrite (sem_eq_val _ _ Ha), (sem_eq_val _ _ Hv). apply write_ext; [done|]. by apply nth_forall2.
  - destruct Hm as [|a a' es es' Ha Hm]; [done|]. simpl. by apply sem_eq_st.
  - destruct Hm as [|a a' es es' Ha Hm]; [done|]. simpl. by apply sem_eq_val.
  - destruct c as [c|]; [|done]. destruct Hm as [|a a' es es' Ha Hm]; [done|]. simpl.
    by rewrite (sem_eq_val _ _ Ha).
Qed.

Lemma divert_same (x y z : out) : other_proper E → same x y → same z (divert_in x y z).
Proof.
  intros Hp Hxy. induction z as [id o ops i IH] using out_ind'.
  simpl. destruct (decide _) as [->|_]; [done|]. apply eval_cong; [done|].
  clear -IH. induction IH; simpl; constructor; done.
Qed.

(** ** Known *)
Lemma known_bot : known bot.
Proof. done. Qed.
Lemma known_nth j (l : list state) : Forall known l → known (nth j l bot).
Proof.
  intros H. destruct (decide (j < length l)%nat) as [Hj|Hj].
  - rewrite List.Forall_forall in H. apply H. by apply nth_In.
  - rewrite nth_overflow by lia. done.
Qed.
Lemma known_write a bs ss s : known s → known (write a bs ss s).
Proof. intros H x. unfold write. destruct (decide _); simpl; [done|]. apply H. Qed.
Lemma eval_known x : other_known E → known (stv x).
Proof.
  intros Ho. unfold Spec.stv. induction x as [id o ops i IH] using out_ind'. simpl.
  assert (Hs : Forall known (map stof (map eval ops))).
  { clear -IH. induction IH; simpl; constructor; done. }
  pose proof (Ho id i (map eval ops)) as Hoi. generalize dependent (map eval ops). clear IH. intros es Hs Hoi.
  destruct o as [| | |t|t| | | | | |c|]; try done; try exact (join_known _).
  - destruct (decide _); [done|]. simpl. intros x. unfold alloc_state. by destruct (decide _).
  - destruct es as [|a es]; [done|]. apply Forall_cons_1 in Hs as [_ Hs]. destruct i as [|j]; [done|]. by apply known_nth.
  - destruct es as [|a [|v es]]; [done..|]. apply Forall_cons_1 in Hs as [_ Hs]. apply Forall_cons_1 in Hs as [_ Hs].
    apply known_write. by apply known_nth.
  - destruct es as [|a es]; [done|]. by apply Forall_cons_1 in Hs as [Hs _].
  - destruct es as [|a es]; [done|]. done.
  - destruct c; [|done]. by destruct es.
Qed.

(** ** What the nodes compute *)
Lemma map_stv ss : map stof (map eval ss) = map stv ss.
Proof. by rewrite map_map. Qed.
Lemma eval_load_value id t a ss :
  eval (Out id (OLoad t) (a :: ss) 0) = SV (dec M t (read (adr M (vv a)) (tsize t) (join (map stv ss)))).
Proof. simpl. by rewrite map_stv. Qed.
Lemma eval_load_state id t a ss j :
  eval (Out id (OLoad t) (a :: ss) (S j)) = SS (nth j (map stv ss) bot).
Proof. simpl. by rewrite map_stv. Qed.
Lemma eval_store id t a v ss i :
  eval (Out id (OStore t) (a :: v :: ss) i) =
  SS (write (adr M (vv a)) (enc M t (vv v)) (map stv ss) (nth i (map stv ss) bot)).
Proof. simpl. by rewrite map_stv. Qed.
Lemma eval_merge id ss i : eval (Out id OMerge ss i) = SS (join (map stv ss)).
Proof. simpl. by rewrite map_stv. Qed.
Lemma eval_join id ss i : eval (Out id OJoin ss i) = SS (join (map stv ss)).
Proof. simpl. by rewrite map_stv. Qed.
Lemma eval_exit id ss i : eval (Out id OLambdaExit ss i) = SS (join (map stv ss)).
Proof. simpl. by rewrite map_stv. Qed.
Lemma eval_is_state x : is_state E x → eval x = SS (stv x).
Proof. intros [s H]. unfold Spec.stv. by rewrite H. Qed.

(** ** Deduplication *)
Lemma dedup_step_join ss acc x :
  jl (map (λ s, stv s x) (fold_left (fun acc s => if bool_decide (s ∈ acc) then acc else acc ++ [s]) ss acc))
  = fold_left newer (map (λ s, stv s x) ss) (jl (map (λ s, stv s x) acc)).
Proof.
  revert acc. induction ss as [|s ss IH]; intros acc; [done|]. cbn [fold_left map].
  destruct (decide (s ∈ acc)) as [Hin|Hin].
  - rewrite bool_decide_true by done. rewrite IH. f_equal. symmetry. apply newer_absorb.
    apply jl_ge. apply elem_of_list_fmap. by exists s.
  - rewrite bool_decide_false by done. rewrite IH. f_equal. rewrite map_app. cbn [map]. apply jl_snoc.
Qed.
Lemma dedup_join ss x : join (map stv (dedup ss)) x = join (map stv ss) x.
Proof. rewrite !join_jl, !map_map. unfold dedup. by rewrite dedup_step_join. Qed.

Lemma dedup_from_elem (ss acc : list out) (s : out) :
  s ∈ fold_left (fun acc s => if bool_decide (s ∈ acc) then acc else acc ++ [s]) ss acc ↔ s ∈ acc ∨ s ∈ ss.
Proof.
  revert acc. induction ss as [|y ss IH]; intros acc; cbn [fold_left].
  - rewrite elem_of_nil. tauto.
  - rewrite IH, elem_of_cons. destruct (decide (y ∈ acc)) as [Hin|Hin].
    + rewrite bool_decide_true by done. split; [tauto|]. intros [?|[->|?]]; tauto.
    + rewrite bool_decide_false by done. rewrite elem_of_app, elem_of_list_singleton. tauto.
Qed.
Lemma dedup_elem ss s : s ∈ dedup ss ↔ s ∈ ss.
Proof. unfold dedup. rewrite dedup_from_elem, elem_of_nil. tauto. Qed.
Lemma dedup_from_NoDup (ss acc : list out) : NoDup acc →
  NoDup (fold_left (fun acc s => if bool_decide (s ∈ acc) then acc else acc ++ [s]) ss acc).
Proof.
  revert acc. induction ss as [|y ss IH]; intros acc Hacc; cbn [fold_left]; [done|]. apply IH.
  destruct (decide (y ∈ acc)) as [Hin|Hin].
  - by rewrite bool_decide_true by done.
  - rewrite bool_decide_false by done. apply NoDup_app. split; [done|]. split.
    + intros x Hx ->%elem_of_list_singleton. done.
    + apply NoDup_singleton.
Qed.
Lemma dedup_NoDup (ss : list out) : NoDup (dedup ss).
Proof. apply dedup_from_NoDup. constructor. Qed.
Lemma index_in_lookup s l : s ∈ l → l !! index_in s l = Some s.
Proof.
  induction l as [|x l IH]; [by intros ?%elem_of_nil|]. intros Hin. simpl.
  destruct (decide (x = s)) as [->|Hn]; [by rewrite bool_decide_true by done|].
  rewrite bool_decide_false by done. simpl. apply IH. apply elem_of_cons in Hin as [->|?]; done.
Qed.
Lemma nth_index s l : s ∈ l → nth (index_in s l) (map stv l) bot = stv s.
Proof.
  intros H. pose proof (index_in_lookup s l H) as Hl.
  apply nth_lookup_Some. change (map stv l) with (stv <$> l). rewrite list_lookup_fmap, Hl. done.
Qed.

(** ** Lists of outputs *)
Lemma outputs_states (id : nat) (o : op) ops n (f : nat → nat) :
  outputs id o ops n = map (Out id o ops) (seq 0 n).
Proof. done. Qed.
Lemma replaces_intro id o ops n (l : list out) :
  length l = n → (∀ i y, l !! i = Some y → same (Out id o ops i) y) → replaces E (outputs id o ops n) l.
Proof.
  intros Hl H. unfold replaces. apply Forall2_same_length_lookup_2.
  { unfold outputs. by rewrite map_length, seq_length. }
  intros i x y Hx Hy. unfold outputs in Hx.
  change (map (Out id o ops) (seq 0 n)) with (Out id o ops <$> seq 0 n) in Hx.
  rewrite list_lookup_fmap in Hx. destruct (seq 0 n !! i) as [k|] eqn:Hk; [|done].
  apply lookup_seq in Hk as [-> Hi]. simpl in Hx. injection Hx as <-. by apply H.
Qed.
Lemma stv_nth (ss : list out) i s : ss !! i = Some s → nth i (map stv ss) bot = stv s.
Proof. intros H. apply nth_lookup_Some. change (map stv ss) with (stv <$> ss). by rewrite list_lookup_fmap, H. Qed.

End sem.
