From stdpp Require Import gmap list.
From Coq Require Import Lia.
From Verif.BijectiveMap Require Import Model Spec.

Section proofs.
  Context {K V : Type} `{Countable K} `{Countable V}.
  Variable order : list (K * V) → list (K * V).
  Hypothesis order_perm : ∀ l, order l ≡ₚ l.

  Definition Repr (m : bimap K V) (P : K → V → Prop) : Prop :=
    (∀ k v, fwd m !! k = Some v ↔ P k v) ∧ (∀ k v, rev m !! v = Some k ↔ P k v).

  Lemma Repr_ext m P P' : (∀ k v, P k v ↔ P' k v) → Repr m P → Repr m P'.
  Proof. intros He [A B]. split; intros; rewrite <- He; auto. Qed.

  Lemma Repr_bij m P : Repr m P → bijective P.
  Proof.
    intros [A B]. split.
    - intros k v v' H1 H2. apply A in H1, H2. congruence.
    - intros k k' v H1 H2. apply B in H1, H2. congruence.
  Qed.

  Lemma HasKey_spec m P k : Repr m P → HasKey m k = true ↔ ∃ v, P k v.
  Proof.
    intros [A B]. unfold HasKey. rewrite bool_decide_eq_true. split.
    - intros [v Hv]. exists v. by apply A.
    - intros [v Hv]. exists v. by apply A.
  Qed.
  Lemma HasValue_spec m P v : Repr m P → HasValue m v = true ↔ ∃ k, P k v.
  Proof.
    intros [A B]. unfold HasValue. rewrite bool_decide_eq_true. split.
    - intros [k Hk]. exists k. by apply B.
    - intros [k Hk]. exists k. by apply B.
  Qed.

  Lemma Insert_ok m P k v :
    Repr m P →
    (free P k v ∧ ∃ m', Insert m k v = (m', true) ∧ Repr m' (add P k v)) ∨
    (¬ free P k v ∧ Insert m k v = (m, false) ∧ Repr m (add P k v)).
  Proof.
    intros HR. pose proof HR as [A B].
    pose proof (HasKey_spec m P k HR) as HK. pose proof (HasValue_spec m P v HR) as HV.
    unfold Insert. destruct (HasKey m k) eqn:EK; simpl.
    { right. assert (¬ free P k v) as Hf.
      { intros [Hf _]. destruct HK as [HK _]. destruct HK as [v' Hv']; [done|]. by apply (Hf v'). }
      split_and!; [done|done|]. eapply Repr_ext; [|exact HR]. unfold add. naive_solver. }
    destruct (HasValue m v) eqn:EV.
    { right. assert (¬ free P k v) as Hf.
      { intros [_ Hf]. destruct HV as [HV _]. destruct HV as [k' Hk']; [done|]. by apply (Hf k'). }
      split_and!; [done|done|]. eapply Repr_ext; [|exact HR]. unfold add. naive_solver. }
    left.
    assert (fwd m !! k = None) as Ek.
    { unfold HasKey in EK. apply bool_decide_eq_false in EK. by apply eq_None_not_Some. }
    assert (rev m !! v = None) as Ev.
    { unfold HasValue in EV. apply bool_decide_eq_false in EV. by apply eq_None_not_Some. }
    assert (free P k v) as Hf.
    { split; [intros v' Hv'; apply A in Hv'; congruence|intros k' Hk'; apply B in Hk'; congruence]. }
    split; [done|]. eexists; split; [done|]. unfold map_insert_new. rewrite Ek, Ev. unfold add.
    split; simpl; intros k' v'.
    - rewrite lookup_insert_Some, A. split.
      + intros [[-> ->]|[? ?]]; [by right|by left].
      + intros [HP|(_ & -> & ->)]; [|by left]. right. split; [|done].
        intros ->. apply A in HP. congruence.
    - rewrite lookup_insert_Some, B. split.
      + intros [[-> ->]|[? ?]]; [by right|by left].
      + intros [HP|(_ & -> & ->)]; [|by left]. right. split; [|done].
        intros ->. apply B in HP. congruence.
  Qed.

  Lemma Erase_ok m P k v :
    Repr m P → P k v → Repr (Erase m k v) (λ k' v', P k' v' ∧ ¬ (k' = k ∧ v' = v)).
  Proof.
    intros HR HP. pose proof (Repr_bij _ _ HR) as [Hf Hi]. destruct HR as [A B].
    split; simpl; intros k' v'; rewrite lookup_delete_Some.
    - rewrite A. split.
      + intros [? ?]. split; [done|]. intros [-> _]. done.
      + intros [HP' Hn]. split; [|done]. intros ->. apply Hn. split; [done|]. by eapply Hf.
    - rewrite B. split.
      + intros [? ?]. split; [done|]. intros [_ ->]. done.
      + intros [HP' Hn]. split; [|done]. intros ->. apply Hn. split; [|done]. by eapply Hi.
  Qed.

  Lemma remove_where_ok p rest m P n :
    Repr m P → NoDup rest → (∀ k v, (k, v) ∈ rest → P k v) →
    ∃ m', remove_where_loop p rest m n =
            (m', n + length (filter (λ kv, p kv.1 kv.2 = true) rest)) ∧
      Repr m' (λ k v, P k v ∧ ¬ ((k, v) ∈ rest ∧ p k v = true)).
  Proof.
    revert m P n. induction rest as [|[k v] rest IH]; intros m P n HR Hnd Hin;
      cbn [remove_where_loop].
    - exists m. split; [f_equal; simpl; lia|]. eapply Repr_ext; [|exact HR].
      intros k v. split; [|tauto]. intros. split; [done|]. intros [Hx _]. inversion Hx.
    - apply NoDup_cons in Hnd as [Hx Hnd].
      assert (P k v) as HP. { apply Hin, elem_of_cons. by left. }
      destruct (p k v) eqn:Ep.
      + destruct (IH _ _ (S n) (Erase_ok m P k v HR HP) Hnd) as (m' & Hrun & HR').
        { intros k' v' Hkv. split; [apply Hin, elem_of_cons; by right|]. intros [-> ->]. done. }
        exists m'. split.
        * rewrite Hrun. f_equal. rewrite filter_cons_True by done. simpl. lia.
        * eapply Repr_ext; [|exact HR']. intros k' v'. rewrite elem_of_cons.
          destruct (decide ((k', v') = (k, v))) as [He|Hne].
          -- simplify_eq. split; [tauto|]. intros [_ Hn]. exfalso. apply Hn. auto.
          -- assert (¬ (k' = k ∧ v' = v)) by naive_solver. tauto.
      + destruct (IH m P n HR Hnd) as (m' & Hrun & HR').
        { intros k' v' Hkv. apply Hin, elem_of_cons. by right. }
        exists m'. split.
        * rewrite Hrun. f_equal. rewrite filter_cons_False by (simpl; congruence). done.
        * eapply Repr_ext; [|exact HR']. intros k' v'. rewrite elem_of_cons.
          destruct (decide ((k', v') = (k, v))) as [He|Hne]; [|tauto].
          simplify_eq. split; [|tauto]. intros [? ?]. split; [done|]. intros [_ ?]. congruence.
  Qed.

  Lemma items_spec m P :
    Repr m P → NoDup (Items order m) ∧ ∀ k v, (k, v) ∈ Items order m ↔ P k v.
  Proof.
    intros [A B]. unfold Items. split.
    - rewrite order_perm. apply NoDup_map_to_list.
    - intros k v. rewrite order_perm, elem_of_map_to_list. apply A.
  Qed.

  Lemma add_mono (P : K → V → Prop) l k v :
    P k v → fold_left (λ P kv, add P kv.1 kv.2) l P k v.
  Proof.
    revert P. induction l as [|[k' v'] l IH]; intros P HP; simpl; [done|].
    apply IH. by left.
  Qed.

  Lemma InsertPairs_ok l m P n :
    Repr m P →
    ∃ m' c, InsertPairs m l n = (m', n + c) ∧
      Repr m' (fold_left (λ P kv, add P kv.1 kv.2) l P) ∧
      has_size (λ k v, fold_left (λ P kv, add P kv.1 kv.2) l P k v ∧ ¬ P k v) c.
  Proof.
    revert m P n. induction l as [|[k v] l IH]; intros m P n HR; cbn [InsertPairs fold_left fst snd].
    - exists m, 0. split_and!; [f_equal; lia|done|]. exists []. split_and!; [constructor| |done].
      intros k v. split; [intros Hx; inversion Hx|tauto].
    - destruct (Insert_ok m P k v HR) as [(Hf & m1 & -> & HR1)|(Hf & -> & HR1)].
      + destruct (IH m1 _ (S n) HR1) as (m' & c & Hrun & HR' & l' & Hnd & Hl' & Hlen).
        exists m', (S c). split_and!; [rewrite Hrun; f_equal; lia|done|].
        exists ((k, v) :: l'). split_and!.
        * apply NoDup_cons. split; [|done]. rewrite Hl'. intros [_ Hn]. apply Hn. right. done.
        * intros k' v'. rewrite elem_of_cons, Hl'. unfold add at 2 3. split.
          -- intros [He|[H1 H2]].
             ++ simplify_eq. split; [apply add_mono; by right|]. destruct Hf as [Hf _]. apply Hf.
             ++ split; [done|]. intros ?. apply H2. by left.
          -- intros [H1 H2]. destruct (decide ((k', v') = (k, v))) as [->|Hne]; [by left|].
             right. split; [done|]. intros [?|(_ & -> & ->)]; done.
        * simpl. by rewrite Hlen.
      + destruct (IH m _ n HR1) as (m' & c & Hrun & HR' & l' & Hnd & Hl' & Hlen).
        exists m', c. split_and!; [done|done|]. exists l'. split_and!; [done| |done].
        intros k' v'. rewrite Hl'.
        assert (add P k v k' v' ↔ P k' v') as Hadd by (unfold add; tauto). by rewrite Hadd.
  Qed.

  Lemma step_ok m P o :
    Repr m P → Repr (step order m o).1 (spec_state P o) ∧ spec_result P o (step order m o).2.
  Proof.
    intros HR. destruct o as [k v|l|k v|k|v|p|]; cbn [step spec_state spec_result].
    - destruct (Insert_ok m P k v HR) as [(Hf & m1 & -> & HR1)|(Hf & -> & HR1)];
        (split; [done|]; eexists; split; [done|]; split; done).
    - destruct (InsertPairs_ok l m P 0 HR) as (m' & c & -> & HR' & Hs).
      split; [done|]. exists c. done.
    - unfold InsertOrThrow.
      destruct (Insert_ok m P k v HR) as [(Hf & m1 & -> & HR1)|(Hf & -> & HR1)];
        (split; [done|]); [left|right]; done.
    - unfold RemoveKey. pose proof HR as [A B].
      destruct (fwd m !! k) as [v|] eqn:E; simpl.
      + apply A in E. split.
        * eapply Repr_ext; [|apply Erase_ok; [exact HR|exact E]].
          intros k' v'. simpl. pose proof (Repr_bij _ _ HR) as [Hf _]. split; [|naive_solver].
          intros [HP Hn]. split; [done|]. intros ->. apply Hn. split; [done|]. by eapply Hf.
        * eexists; split; [done|]. split; [by exists v|done].
      + split.
        * eapply Repr_ext; [|exact HR]. intros k' v'. split; [|tauto]. intros HP. split; [done|].
          intros ->. apply A in HP. congruence.
        * eexists; split; [done|]. split; [done|]. intros [v HP]. apply A in HP. congruence.
    - unfold RemoveValue. pose proof HR as [A B].
      destruct (rev m !! v) as [k|] eqn:E; simpl.
      + apply B in E. split.
        * change (BiMap (delete k (fwd m)) (delete v (rev m))) with (Erase m k v).
          eapply Repr_ext; [|apply (Erase_ok m P k v); [exact HR|exact E]].
          intros k' v'. simpl. pose proof (Repr_bij _ _ HR) as [_ Hi]. split; [|naive_solver].
          intros [HP Hn]. split; [done|]. intros ->. apply Hn. split; [|done]. by eapply Hi.
        * eexists; split; [done|]. split; [by exists k|done].
      + split.
        * eapply Repr_ext; [|exact HR]. intros k' v'. split; [|tauto]. intros HP. split; [done|].
          intros ->. apply B in HP. congruence.
        * eexists; split; [done|]. split; [done|]. intros [k HP]. apply B in HP. congruence.
    - destruct (items_spec m P HR) as [Hnd Hit].
      destruct (remove_where_ok p (Items order m) m P 0 HR Hnd) as (m' & Hrun & HR').
      { intros k v. apply Hit. }
      unfold RemoveWhere. unfold Items in *. rewrite Hrun. simpl. split.
      + eapply Repr_ext; [|exact HR']. intros k v. simpl. rewrite Hit. destruct (p k v); naive_solver.
      + eexists. split; [done|]. eexists. split_and!; [|  |done].
        * by apply NoDup_filter.
        * intros k v. rewrite elem_of_list_filter, Hit. simpl. tauto.
    - split; [|done]. split; intros; simpl; rewrite lookup_empty; done.
  Qed.

  Lemma run_ok ops : Repr (run order ops) (spec_run ops).
  Proof.
    unfold run, spec_run.
    assert (Repr empty_bimap (λ _ _, False)) as HR.
    { split; intros; simpl; rewrite lookup_empty; done. }
    revert HR. generalize (@empty_bimap K V _ _ _ _) as st.
    generalize (λ (_ : K) (_ : V), False) as P.
    induction ops as [|o ops IH]; intros P st HR; cbn [fold_left]; [done|].
    apply IH. by apply step_ok.
  Qed.

  Lemma run_spec ops :
    let m := run order ops in
    (∀ k v, LookupKey m k = Some v ↔ spec_run ops k v) ∧
    (∀ k v, LookupValue m v = Some k ↔ spec_run ops k v) ∧
    (∀ k, HasKey m k = true ↔ ∃ v, spec_run ops k v) ∧
    (∀ v, HasValue m v = true ↔ ∃ k, spec_run ops k v) ∧
    bijective (spec_run ops) ∧
    NoDup (Items order m) ∧ (∀ k v, (k, v) ∈ Items order m ↔ spec_run ops k v) ∧
    Size m = length (Items order m) ∧ base.size (fwd m) = base.size (rev m) ∧
    ∀ o, spec_result (spec_run ops) o (step order m o).2.
  Proof.
    simpl. pose proof (run_ok ops) as HR. set (m := run order ops) in *.
    pose proof HR as [A B]. pose proof (Repr_bij _ _ HR) as Hb.
    destruct (items_spec m _ HR) as [Hnd Hit].
    split_and!; try done.
    - intros k. by apply HasKey_spec.
    - intros k. by apply HasValue_spec.
    - unfold Size, Items, base.size, map_size. by rewrite order_perm.
    - unfold base.size, map_size. rewrite <- (fmap_length (λ kv, (kv.2, kv.1)) (map_to_list (fwd m))).
      apply Permutation_length. apply NoDup_Permutation.
      + apply NoDup_fmap_2; [|apply NoDup_map_to_list]. intros [??] [??] ?; simpl in *; congruence.
      + apply NoDup_map_to_list.
      + intros [v k]. rewrite elem_of_map_to_list, B, elem_of_list_fmap. split.
        * intros ([k' v'] & He & Hin). simpl in He. simplify_eq.
          apply elem_of_map_to_list in Hin. by apply A.
        * intros HP. exists (k, v). split; [done|]. apply elem_of_map_to_list. by apply A.
    - intros o. by apply step_ok.
  Qed.

  Lemma equals_ok ops1 ops2 :
    equals (run order ops1) (run order ops2) = true ↔
    ∀ k v, spec_run ops1 k v ↔ spec_run ops2 k v.
  Proof.
    destruct (run_ok ops1) as [A1 _]. destruct (run_ok ops2) as [A2 _].
    unfold equals. rewrite bool_decide_eq_true. split.
    - intros He k v. by rewrite <- A1, <- A2, He.
    - intros He. apply map_eq. intros k. apply option_eq. intros v. by rewrite A1, A2.
  Qed.

  Lemma construct_ok (l : list (K * V)) :
    (∃ m, construct empty_bimap l = Some m ∧
       ∀ k v, LookupKey m k = Some v ↔ (k, v) ∈ l) ∧ NoDup l.*1 ∧ NoDup l.*2 ∨
    construct empty_bimap l = None ∧ ¬ (NoDup l.*1 ∧ NoDup l.*2).
  Proof.
    assert (∀ m P, Repr m P →
      (∃ m', construct m l = Some m' ∧ Repr m' (λ k v, P k v ∨ (k, v) ∈ l)) ∧
        NoDup l.*1 ∧ NoDup l.*2 ∧ (∀ k v, (k, v) ∈ l → free P k v)
      ∨ construct m l = None ∧ ¬ (NoDup l.*1 ∧ NoDup l.*2 ∧ (∀ k v, (k, v) ∈ l → free P k v))) as Hgen.
    { induction l as [|[k v] l IH]; intros m P HR; cbn [construct fmap list_fmap fst].
      - left. split_and!; [|constructor|constructor|intros ?? Hx; inversion Hx].
        exists m. split; [done|]. eapply Repr_ext; [|exact HR].
        intros k v. split; [by left|]. intros [?|Hx]; [done|inversion Hx].
      - unfold InsertOrThrow.
        destruct (Insert_ok m P k v HR) as [(Hf & m1 & -> & HR1)|(Hf & -> & HR1)]; simpl.
        + assert ((NoDup l.*1 ∧ NoDup l.*2 ∧ (∀ k' v', (k', v') ∈ l → free (add P k v) k' v')) ↔
                  (NoDup (k :: l.*1) ∧ NoDup (v :: l.*2) ∧
                   (∀ k' v', (k', v') ∈ (k, v) :: l → free P k' v'))) as Heq.
          { rewrite !NoDup_cons. split.
            - intros (H1 & H2 & H3). split_and!; try done.
              + intros ([k' v'] & -> & Hin)%elem_of_list_fmap. simpl in *.
                destruct (H3 k' v' Hin) as [Hc _]. apply (Hc v). right. done.
              + intros ([k' v'] & -> & Hin)%elem_of_list_fmap. simpl in *.
                destruct (H3 k' v' Hin) as [_ Hc]. apply (Hc k). right. done.
              + intros k' v' Hin. apply elem_of_cons in Hin as [He|Hin]; [by simplify_eq|].
                destruct (H3 k' v' Hin) as [Hc1 Hc2]. split.
                * intros v2 HP. apply (Hc1 v2). by left.
                * intros v2 HP. apply (Hc2 v2). by left.
            - intros ((H1 & H2) & (H3 & H4) & H5). split_and!; try done.
              intros k' v' Hin. destruct (H5 k' v') as [Hc1 Hc2]; [apply elem_of_cons; by right|].
              split.
              + intros v2 [HP|(_ & -> & ->)]; [by apply (Hc1 v2)|]. apply H1.
                apply elem_of_list_fmap. exists (k, v'). done.
              + intros k2 [HP|(_ & -> & ->)]; [by apply (Hc2 k2)|]. apply H3.
                apply elem_of_list_fmap. exists (k', v). done. }
          destruct (IH m1 _ HR1) as [((m' & Hc & HR') & Hok)|[Hc Hno]].
          * left. split; [|by apply Heq]. exists m'. split; [done|].
            eapply Repr_ext; [|exact HR']. intros k' v'. simpl. unfold add. rewrite elem_of_cons.
            split; [|]; naive_solver.
          * right. split; [done|]. intros Hx. apply Hno. by apply Heq.
        + right. split; [done|]. intros (_ & _ & Hfr). apply Hf, Hfr, elem_of_cons. by left. }
    assert (Repr (@empty_bimap K V _ _ _ _) (λ _ _, False)) as HR.
    { split; intros; simpl; rewrite lookup_empty; done. }
    destruct (Hgen _ _ HR) as [((m & Hc & [HA _]) & H1 & H2 & _)|[Hc Hno]].
    - left. split_and!; [|done|done]. exists m. split; [done|]. intros k v. unfold LookupKey.
      rewrite HA. naive_solver.
    - right. split; [done|]. intros [? ?]. apply Hno. split_and!; try done. intros k v _. split; intros ? [].
  Qed.
End proofs.
