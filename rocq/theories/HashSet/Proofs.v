From stdpp Require Import list.
From Coq Require Import Lia.
From Verif.HashSet Require Import Model Spec.

Section proofs.
  Context {K : Type} `{EqDecision K}.
  Variable hash_order : list K → list K.
  Hypothesis hash_perm : ∀ l, hash_order l ≡ₚ l.

  Definition Repr (st : store K) (A : nat → K → Prop) : Prop :=
    ∀ i, NoDup (st i) ∧ ∀ x, x ∈ st i ↔ A i x.

  Lemma contains_spec (l : list K) x : contains l x = true ↔ x ∈ l.
  Proof. unfold contains. apply bool_decide_eq_true. Qed.

  Lemma upd_same (st : store K) i l : upd st i l i = l.
  Proof. unfold upd. by rewrite decide_True. Qed.
  Lemma upd_ne (st : store K) i j l : j ≠ i → upd st i l j = st j.
  Proof. intros. unfold upd. by rewrite decide_False. Qed.

  Lemma Repr_upd (st : store K) A i l P :
    Repr st A → NoDup l → (∀ x, x ∈ l ↔ P x) → Repr (upd st i l) (aset A i P).
  Proof.
    intros HR Hnd Hl j. unfold upd, aset. destruct (decide (j = i)); [done|apply HR].
  Qed.

  Lemma Repr_ext st A A' : (∀ i x, A i x ↔ A' i x) → Repr st A → Repr st A'.
  Proof.
    intros He HR i. destruct (HR i) as [Hn Hx]. split; [done|].
    intros x. by rewrite Hx.
  Qed.

  Lemma elem_emplace l x y : y ∈ emplace hash_order l x ↔ y = x ∨ y ∈ l.
  Proof.
    unfold emplace. destruct (contains l x) eqn:E.
    - apply contains_spec in E. split; [by right|]. by intros [->|].
    - rewrite hash_perm, elem_of_cons. done.
  Qed.
  Lemma NoDup_emplace l x : NoDup l → NoDup (emplace hash_order l x).
  Proof.
    intros Hn. unfold emplace. destruct (contains l x) eqn:E; [done|].
    rewrite hash_perm. apply NoDup_cons. split; [|done].
    intros Hx. apply contains_spec in Hx. congruence.
  Qed.
  Lemma length_emplace l x :
    length (emplace hash_order l x) = (if contains l x then length l else S (length l)).
  Proof.
    unfold emplace. destruct (contains l x); [done|]. by rewrite hash_perm.
  Qed.

  Lemma elem_erase (l : list K) x y : y ∈ erase l x ↔ y ≠ x ∧ y ∈ l.
  Proof. unfold erase. rewrite elem_of_list_filter. done. Qed.
  Lemma NoDup_erase (l : list K) x : NoDup l → NoDup (erase l x).
  Proof. apply NoDup_filter. Qed.
  Lemma length_erase (l : list K) x :
    NoDup l → length (erase l x) = (if contains l x then length l - 1 else length l).
  Proof.
    intros Hn. destruct (contains l x) eqn:E.
    - apply contains_spec in E.
      assert (l ≡ₚ x :: erase l x) as Hp.
      { apply NoDup_Permutation; [done| |].
        - apply NoDup_cons. split; [|by apply NoDup_erase]. rewrite elem_erase. tauto.
        - intros y. rewrite elem_of_cons, elem_erase. destruct (decide (y = x)); naive_solver. }
      assert (length l = S (length (erase l x))) by (by rewrite Hp at 1). lia.
    - assert (erase l x ≡ₚ l) as ->; [|done].
      apply NoDup_Permutation; [by apply NoDup_erase|done|].
      intros y. rewrite elem_erase. split; [tauto|]. intros Hy. split; [|done].
      intros ->. apply contains_spec in Hy. congruence.
  Qed.

  Lemma NoDup_perm_size (l l' : list K) :
    NoDup l → NoDup l' → (∀ x, x ∈ l ↔ x ∈ l') → length l = length l'.
  Proof. intros ???. apply Permutation_length. by apply NoDup_Permutation. Qed.

  Lemma has_size_list (l : list K) P : NoDup l → (∀ x, x ∈ l ↔ P x) → has_size P (length l).
  Proof. intros. by exists l. Qed.

  Lemma has_size_fun (P : K → Prop) n l :
    NoDup l → (∀ x, x ∈ l ↔ P x) → has_size P n → n = length l.
  Proof.
    intros Hn Hl (l' & Hn' & Hl' & <-). apply NoDup_perm_size; try done.
    intros x. by rewrite Hl, Hl'.
  Qed.

  (** UnionWith: the insertion loop *)
  Lemma insert_state st i x : (insert hash_order st i x).1 = upd st i (emplace hash_order (st i) x).
  Proof. done. Qed.

  Lemma union_loop st A i items :
    Repr st A →
    Repr (fold_left (λ st item, (insert hash_order st i item).1) items st)
         (aset A i (λ y, A i y ∨ y ∈ items)).
  Proof.
    revert st A. induction items as [|x items IH]; intros st A HR; cbn [fold_left].
    - eapply Repr_ext; [|exact HR]. intros j y. unfold aset.
      destruct (decide (j = i)) as [->|]; [|done]. split; [by left|].
      intros [?|Hy]; [done|inversion Hy].
    - rewrite insert_state.
      assert (Repr (upd st i (emplace hash_order (st i) x)) (aset A i (λ y, y = x ∨ A i y))) as HR1.
      { destruct (HR i) as [Hn Hx]. apply Repr_upd; [done|by apply NoDup_emplace|].
        intros y. by rewrite elem_emplace, Hx. }
      specialize (IH _ _ HR1). eapply Repr_ext; [|exact IH].
      intros j y. unfold aset. destruct (decide (j = i)) as [->|]; [|done].
      rewrite decide_True by done. rewrite elem_of_cons. tauto.
  Qed.

  Lemma union_len_mono st i items :
    length (st i) ≤ length (fold_left (λ st item, (insert hash_order st i item).1) items st i).
  Proof.
    revert st. induction items as [|x items IH]; intros st; cbn [fold_left]; [done|].
    etransitivity; [|apply IH]. rewrite insert_state, upd_same, length_emplace.
    destruct (contains (st i) x); lia.
  Qed.

  Lemma union_result st A i j :
    Repr st A →
    bool_decide (Size (st i) ≠
      Size (fold_left (λ st item, (insert hash_order st i item).1) (st j) st i)) = true
    ↔ ∃ x, A j x ∧ ¬ A i x.
  Proof.
    intros HR. rewrite bool_decide_eq_true. unfold Size.
    pose proof (union_loop st A i (st j) HR) as HR'.
    set (st' := fold_left _ _ _) in *.
    destruct (HR i) as [Hni Hi]. destruct (HR j) as [Hnj Hj]. destruct (HR' i) as [Hn' Hi'].
    unfold aset in Hi'. rewrite decide_True in Hi' by done.
    assert (∀ x, x ∈ st' i ↔ x ∈ st i ∨ x ∈ st j) as Hun.
    { intros x. rewrite Hi'. by rewrite Hi. }
    split.
    - intros Hlen.
      destruct (decide (Exists (λ x, x ∉ st i) (st j))) as [He|He].
      + apply Exists_exists in He as (x & Hx & Hnx). exists x. by rewrite <- Hi, <- Hj.
      + exfalso. apply Hlen. apply NoDup_perm_size; try done. intros x. rewrite Hun.
        split; [by left|]. intros [?|Hx]; [done|].
        destruct (decide (x ∈ st i)); [done|]. exfalso. apply He. apply Exists_exists. eauto.
    - intros (x & Hxj & Hxi) Hlen. rewrite <- Hj in Hxj. rewrite <- Hi in Hxi.
      assert (length (x :: st i) ≤ length (st' i)) as Hle; [|simpl in Hle; lia].
      apply submseteq_length, NoDup_submseteq.
      + by apply NoDup_cons.
      + intros y Hy. apply Hun. apply elem_of_cons in Hy as [->|]; auto.
  Qed.

  (** RemoveWhere with a predicate whose value on the items still to be visited
      does not change while items are removed *)
  Lemma remove_where_loop_ok i match_ (p : K → bool) rest st A n :
    Repr st A → NoDup rest → (∀ x, x ∈ rest → x ∈ st i) →
    (∀ st' : store K, (∀ j, j ≠ i → st' j = st j) →
       (∀ x, x ∈ rest → x ∈ st i → (x ∈ st' i ↔ x ∈ st i) → match_ st' x = p x)) →
    ∃ st', remove_where_loop i match_ rest st n = (st', n + length (filter (λ x, p x = true) rest)) ∧
      Repr st' (aset A i (λ y, A i y ∧ ¬ (y ∈ rest ∧ p y = true))).
  Proof.
    revert st A n. induction rest as [|x rest IH]; intros st A n HR Hnd Hin Hp; cbn [remove_where_loop].
    - exists st. split; [f_equal; simpl; lia|]. eapply Repr_ext; [|exact HR].
      intros j y. unfold aset. destruct (decide (j = i)) as [->|]; [|done].
      split; [intros; split; [done|]; intros [Hy _]; inversion Hy|tauto].
    - apply NoDup_cons in Hnd as [Hx Hnd].
      assert (match_ st x = p x) as Hm.
      { apply Hp; try done. - by apply elem_of_cons; left. - apply Hin, elem_of_cons; by left. }
      rewrite Hm. destruct (p x) eqn:Epx.
      + set (st1 := upd st i (erase (st i) x)).
        assert (Repr st1 (aset A i (λ y, y ≠ x ∧ A i y))) as HR1.
        { destruct (HR i) as [Hn Hi]. apply Repr_upd; [done|by apply NoDup_erase|].
          intros y. by rewrite elem_erase, Hi. }
        assert (∀ y, y ∈ rest → y ≠ x) as Hne by (intros y Hy ->; done).
        destruct (IH st1 _ (S n) HR1 Hnd) as (st' & Hrun & HR').
        * intros y Hy. unfold st1. rewrite upd_same, elem_erase. split; [by apply Hne|].
          apply Hin, elem_of_cons. by right.
        * intros st2 Hj y Hy Hy1 Hy2. apply Hp.
          -- intros j Hji. rewrite Hj by done. unfold st1. by rewrite upd_ne.
          -- apply elem_of_cons. by right.
          -- apply Hin, elem_of_cons. by right.
          -- rewrite Hy2. unfold st1. rewrite upd_same, elem_erase. specialize (Hne y Hy). tauto.
        * exists st'. split.
          -- rewrite Hrun. f_equal. rewrite filter_cons_True by done. simpl. lia.
          -- eapply Repr_ext; [|exact HR']. intros j y. unfold aset.
             destruct (decide (j = i)) as [->|]; [|done]. rewrite decide_True by done.
             rewrite elem_of_cons. destruct (decide (y = x)) as [->|]; [|tauto].
             split; [tauto|]. intros [_ Hn]. exfalso. apply Hn. auto.
      + destruct (IH st A n HR Hnd) as (st' & Hrun & HR').
        * intros y Hy. apply Hin, elem_of_cons. by right.
        * intros st2 Hj y Hy. apply Hp; [done|]. apply elem_of_cons. by right.
        * exists st'. split.
          -- rewrite Hrun. f_equal. rewrite filter_cons_False by congruence. done.
          -- eapply Repr_ext; [|exact HR']. intros j y. unfold aset.
             destruct (decide (j = i)) as [->|]; [|done].
             rewrite elem_of_cons. destruct (decide (y = x)) as [->|]; [|tauto].
             split; [|tauto]. intros [? ?]. split; [done|]. intros [_ ?]. congruence.
  Qed.

  Lemma RemoveWhere_ok st A i match_ (p : K → bool) :
    Repr st A →
    (∀ st' : store K, (∀ j, j ≠ i → st' j = st j) →
       (∀ x, x ∈ st i → x ∈ st' i → match_ st' x = p x)) →
    ∃ st', RemoveWhere st i match_ = (st', length (filter (λ x, p x = true) (st i))) ∧
      Repr st' (aset A i (λ y, A i y ∧ p y = false)).
  Proof.
    intros HR Hp. destruct (HR i) as [Hn Hi].
    destruct (remove_where_loop_ok i match_ p (st i) st A 0 HR Hn) as (st' & Hrun & HR').
    - done.
    - intros st' Hj x Hx _ Hxx. apply Hp; [done|done|]. by apply Hxx.
    - exists st'. split; [done|]. eapply Repr_ext; [|exact HR'].
      intros j y. unfold aset. destruct (decide (j = i)) as [->|]; [|done].
      rewrite Hi. destruct (p y); split; naive_solver.
  Qed.

  Lemma remove_fold st A i items :
    Repr st A →
    Repr (fold_left (λ st item, (Remove st i item).1) items st)
         (aset A i (λ y, A i y ∧ y ∉ items)).
  Proof.
    revert st A. induction items as [|x items IH]; intros st A HR; cbn [fold_left].
    - eapply Repr_ext; [|exact HR]. intros j y. unfold aset.
      destruct (decide (j = i)) as [->|]; [|done]. split; [|tauto].
      intros. split; [done|]. intros Hy; inversion Hy.
    - cbn [Remove fst].
      assert (Repr (upd st i (erase (st i) x)) (aset A i (λ y, y ≠ x ∧ A i y))) as HR1.
      { destruct (HR i) as [Hn Hx]. apply Repr_upd; [done|by apply NoDup_erase|].
        intros y. by rewrite elem_erase, Hx. }
      specialize (IH _ _ HR1). eapply Repr_ext; [|exact IH].
      intros j y. unfold aset. destruct (decide (j = i)) as [->|]; [|done].
      rewrite decide_True by done. rewrite not_elem_of_cons. tauto.
  Qed.

  Lemma Repr_swap st A i j :
    Repr st A → Repr (swap st i j) (aset (aset A i (A j)) j (A i)).
  Proof.
    intros HR. unfold swap. apply Repr_upd; [apply Repr_upd; [done|apply HR|apply HR]|apply HR|apply HR].
  Qed.

  Lemma Repr_union st A i j :
    Repr st A →
    Repr (UnionWith hash_order st i j).1 (aset A i (λ y, A i y ∨ A j y)).
  Proof.
    intros HR. cbn [UnionWith fst].
    eapply Repr_ext; [|apply union_loop, HR]. intros k y. unfold aset.
    destruct (decide (k = i)); [|done]. destruct (HR j) as [_ Hj]. by rewrite Hj.
  Qed.

  Lemma Repr_clear st A i : Repr st A → Repr (Clear st i) (aset A i (λ _, False)).
  Proof.
    intros HR. apply Repr_upd; [done|constructor|].
    intros x; split; [intros Hx; inversion Hx|done].
  Qed.

  Lemma Repr_intersect st A i j :
    Repr st A → Repr (IntersectWith st i j) (aset A i (λ y, A i y ∧ A j y)).
  Proof.
    intros HR. unfold IntersectWith.
    destruct (RemoveWhere_ok st A i (λ st item, negb (contains (st j) item))
                (λ item, negb (contains (st j) item)) HR) as (st' & Hrun & HR').
    { intros st' Hoth x Hx Hx'. destruct (decide (j = i)) as [->|Hne].
      - f_equal. unfold contains. rewrite !bool_decide_eq_true_2 by done. done.
      - by rewrite Hoth. }
    rewrite Hrun. eapply Repr_ext; [|exact HR'].
    intros k y. unfold aset. destruct (decide (k = i)); [|done].
    destruct (HR j) as [_ Hj]. rewrite <- Hj. rewrite negb_false_iff, contains_spec. done.
  Qed.

  Lemma Repr_difference st A i j :
    Repr st A → Repr (DifferenceWith st i j) (aset A i (λ y, A i y ∧ ¬ A j y)).
  Proof.
    intros HR. unfold DifferenceWith. destruct (decide (Size (st i) ≤ Size (st j))).
    - destruct (RemoveWhere_ok st A i (λ st item, contains (st j) item)
                (λ item, contains (st j) item) HR) as (st' & Hrun & HR').
      { intros st' Hoth x Hx Hx'. destruct (decide (j = i)) as [->|Hne].
        - unfold contains. rewrite !bool_decide_eq_true_2 by done. done.
        - by rewrite Hoth. }
      rewrite Hrun. eapply Repr_ext; [|exact HR'].
      intros k y. unfold aset. destruct (decide (k = i)); [|done].
      destruct (HR j) as [_ Hj]. rewrite <- Hj. rewrite <- not_true_iff_false, contains_spec. done.
    - eapply Repr_ext; [|apply remove_fold, HR].
      intros k y. unfold aset. destruct (decide (k = i)); [|done].
      destruct (HR j) as [_ Hj]. by rewrite Hj.
  Qed.

  Lemma forallb_contains (l l' : list K) :
    forallb (λ x, contains l' x) l = true ↔ ∀ x, x ∈ l → x ∈ l'.
  Proof.
    rewrite forallb_forall. split.
    - intros Hf x Hx. apply contains_spec, Hf. by apply elem_of_list_In.
    - intros Hf x Hx. apply contains_spec, Hf. by apply elem_of_list_In.
  Qed.

  Lemma equals_ok st A i j :
    Repr st A → equals st i j = true ↔ ∀ x, A i x ↔ A j x.
  Proof.
    intros HR. destruct (HR i) as [Hni Hi]. destruct (HR j) as [Hnj Hj].
    unfold equals, Size. destruct (decide (length (st i) ≠ length (st j))) as [Hne|Heq].
    - split; [done|]. intros Heq. exfalso. apply Hne. apply NoDup_perm_size; try done.
      intros x. by rewrite Hi, Hj.
    - assert (length (st i) = length (st j)) as Hlen by lia.
      rewrite forallb_contains. split.
      + intros Hs x. rewrite <- Hi, <- Hj. split; [apply Hs|].
        assert (st i ≡ₚ st j) as Hp.
        { apply submseteq_Permutation_length_le; [lia|by apply NoDup_submseteq]. }
        by rewrite Hp.
      + intros Heq2 x. rewrite Hi, Hj. apply Heq2.
  Qed.

  Lemma step_ok st A o :
    Repr st A →
    Repr (step hash_order st o).1 (spec_state A o) ∧ spec_result A o (step hash_order st o).2.
  Proof.
    intros HR. destruct o as [i x|i x|i x|i|i|i|i j|i j|i j|i j|i j|i p|i|i j|i j];
      cbn [step spec_state spec_result].
    - destruct (HR i) as [Hn Hi]. unfold insert. cbn [fst snd]. split.
      + apply Repr_upd; [done|by apply NoDup_emplace|]. intros y. by rewrite elem_emplace, Hi.
      + eexists; split; [done|]. rewrite bool_decide_eq_true, upd_same. unfold Size.
        rewrite length_emplace, <- Hi, <- contains_spec.
        destruct (contains (st i) x); split; intros; try done; try lia.
    - destruct (HR i) as [Hn Hi]. unfold Remove. cbn [fst snd]. split.
      + apply Repr_upd; [done|by apply NoDup_erase|]. intros y. by rewrite elem_erase, Hi.
      + eexists; split; [done|]. rewrite bool_decide_eq_true, length_erase by done.
        rewrite <- Hi, <- contains_spec.
        destruct (contains (st i) x) eqn:E; split; intros; try done; try lia.
        apply contains_spec in E. destruct (st i); [inversion E|simpl; lia].
    - split; [done|]. eexists; split; [done|]. rewrite contains_spec. apply HR.
    - split; [done|]. eexists; split; [done|]. apply has_size_list; apply HR.
    - split; [done|]. eexists; split; [done|]. destruct (HR i) as [Hn Hi].
      unfold IsEmpty, Size. rewrite bool_decide_eq_true. split.
      + intros Hl x. rewrite <- Hi. destruct (st i); [|done]. apply not_elem_of_nil.
      + intros He. destruct (st i) as [|x l]; [done|]. exfalso. apply (He x), Hi.
        apply elem_of_cons. by left.
    - split; [done|]. eexists; split; [done|]. apply HR.
    - pose proof (Repr_union st A i j HR) as HR1.
      pose proof (union_result st A i j HR) as Hres.
      unfold UnionWith in *. cbn [fst snd] in *. split; [done|]. eexists. split; [done|]. done.
    - set (st0 := if decide (Size (st i) < Size (st j)) then swap st i j else st).
      set (A0 := if decide (Size (st i) < Size (st j)) then aset (aset A i (A j)) j (A i) else A).
      assert (Repr st0 A0) as HR0.
      { unfold st0, A0. destruct (decide _); [by apply Repr_swap|done]. }
      unfold UnionWithAndClear. fold st0.
      pose proof (Repr_union st0 A0 i j HR0) as HR1.
      pose proof (union_result st0 A0 i j HR0) as Hres.
      unfold UnionWith in *. cbn [fst snd] in *. split.
      + eapply Repr_ext; [|apply Repr_clear; exact HR1].
        intros k y. unfold A0. destruct (decide _); [|done]. unfold aset.
        destruct (decide (k = j)) as [->|Hkj]; [done|].
        destruct (decide (k = i)) as [->|Hki]; [|done].
        rewrite decide_False by done. rewrite !decide_True by done. tauto.
      + eexists. split; [done|]. intros n m Hsi Hsj Hle. rewrite Hres.
        destruct (HR i) as [Hni Hi]. destruct (HR j) as [Hnj Hj].
        apply (has_size_fun _ _ (st i)) in Hsi; [|done|done].
        apply (has_size_fun _ _ (st j)) in Hsj; [|done|done].
        unfold A0, Size. rewrite decide_False by lia. done.
    - split; [|done]. by apply Repr_intersect.
    - split; [|done].
      set (st0 := if decide (Size (st j) < Size (st i)) then swap st i j else st).
      set (A0 := if decide (Size (st j) < Size (st i)) then aset (aset A i (A j)) j (A i) else A).
      assert (Repr st0 A0) as HR0.
      { unfold st0, A0. destruct (decide _); [by apply Repr_swap|done]. }
      unfold IntersectWithAndClear. fold st0. cbn [fst].
      eapply Repr_ext; [|apply Repr_clear, Repr_intersect, HR0].
      intros k y. unfold A0. destruct (decide _); [|done]. unfold aset.
      destruct (decide (k = j)) as [->|Hkj]; [done|].
      destruct (decide (k = i)) as [->|Hki]; [|done].
      rewrite decide_False by done. rewrite !decide_True by done. tauto.
    - split; [|done]. by apply Repr_difference.
    - destruct (RemoveWhere_ok st A i (λ _, p) p HR) as (st' & Hrun & HR'); [done|].
      rewrite Hrun. cbn [fst snd]. split; [done|]. eexists; split; [done|].
      destruct (HR i) as [Hn Hi]. apply has_size_list; [by apply NoDup_filter|].
      intros x. rewrite elem_of_list_filter, Hi. tauto.
    - split; [|done]. by apply Repr_clear.
    - split; [done|]. eexists; split; [done|]. by apply equals_ok.
    - split; [|done]. apply Repr_upd; [done|apply HR|apply HR].
  Qed.

  Lemma run_ok ops : Repr (run hash_order ops) (spec_run ops).
  Proof.
    unfold run, spec_run.
    assert (Repr empty_store (λ _ _, False)) as HR.
    { intros i. split; [constructor|]. intros x; split; [intros Hx; inversion Hx|done]. }
    revert HR. generalize (@empty_store K) as st. generalize (λ (_ : nat) (_ : K), False) as A.
    induction ops as [|o ops IH]; intros A st HR; cbn [fold_left]; [done|].
    apply IH. by apply step_ok.
  Qed.

  Lemma run_spec ops :
    (∀ i, NoDup (run hash_order ops i) ∧ ∀ x, x ∈ run hash_order ops i ↔ spec_run ops i x) ∧
    ∀ o, spec_result (spec_run ops) o (step hash_order (run hash_order ops) o).2.
  Proof.
    split; [apply run_ok|]. intros o. apply step_ok, run_ok.
  Qed.

  Lemma subset_actual ops i j :
    IsSubsetOf (run hash_order ops) i j = true ↔
    Size (run hash_order ops i) ≤ Size (run hash_order ops j).
  Proof.
    unfold IsSubsetOf. destruct (decide _) as [Hgt|Hle].
    - split; [done|lia].
    - rewrite forallb_contains. split; [lia|done].
  Qed.

  Lemma subset_partial ops i j :
    (∀ x, spec_run ops i x → spec_run ops j x) → IsSubsetOf (run hash_order ops) i j = true.
  Proof.
    intros Hs. apply subset_actual. unfold Size.
    destruct (run_ok ops i) as [Hni Hi]. destruct (run_ok ops j) as [Hnj Hj].
    apply submseteq_length, NoDup_submseteq; [done|].
    intros x Hx. apply Hj, Hs, Hi, Hx.
  Qed.
End proofs.
