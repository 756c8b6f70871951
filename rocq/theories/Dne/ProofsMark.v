(** The marking phase: it terminates, what it marks is closed under dependencies, and is needed. *)
From stdpp Require Import base list list_numbers fin_sets gmap.
From Verif.Rvsdg Require Import Model Spec Sem Wf WfFacts.
From Verif.Dne Require Import Model Spec.

Definition live (c : ctx) (o : oid) (w : view) : Prop :=
  match w with
  | VSimple id load op k ins => id ∈ cnodes c \/ (load = true /\ k <> 0 /\ o ∈ couts c)
  | _ => o ∈ couts c
  end.
Definition is_simple (w : view) : bool := match w with VSimple _ _ _ _ _ => true | _ => false end.

Lemma size_list_le (l : list nat) : size (list_to_set l : gset nat) <= length l.
Proof.
  induction l as [|x l IH]; cbn [length]; [by rewrite list_to_set_nil, size_empty|].
  rewrite list_to_set_cons. destruct (decide (x ∈ (list_to_set l : gset nat))) as [H|H].
  - assert ({[x]} ∪ (list_to_set l : gset nat) = list_to_set l) as -> by set_solver. lia.
  - rewrite size_union by set_solver. rewrite size_singleton. lia.
Qed.
Lemma diff_lemma (X Y : gset nat) x : x ∈ X -> x ∉ Y -> X ∖ ({[x]} ∪ Y) ⊂ X ∖ Y.
Proof. intros. split; [set_solver|]. intros H'. specialize (H' x). set_solver. Qed.
Lemma omap_length {A B} (f : A -> option B) l : length (omap f l) <= length l.
Proof. induction l as [|x l IH]; cbn; [done|]. destruct (f x); cbn; lia. Qed.

Section Mark.
  Context (t : region).
  Context (Hnd : NoDup (defs t).*1).
  Context (Hid : forall o o' id l l' op op' k k' ins ins', (o, VSimple id l op k ins) ∈ defs t -> (o', VSimple id l' op' k' ins') ∈ defs t -> l = l' /\ op = op' /\ ins = ins').
  Local Notation m := (list_to_map (defs t) : gmap nat view).

  Lemma m_iff o w : m !! o = Some w <-> (o, w) ∈ defs t.
  Proof using Hnd. clear Hid. symmetry. by apply elem_of_list_to_map. Qed.

  Definition lv (c : ctx) (x : oid) : Prop := forall w, m !! x = Some w -> live c x w.
  Definition ext (c c' : ctx) : Prop := cnodes c ⊆ cnodes c' /\ couts c ⊆ couts c'.
  Lemma lv_ext c c' x : ext c c' -> lv c x -> lv c' x.
  Proof using. clear Hnd Hid. intros [H1 H2] Hl w Hw. specialize (Hl w Hw). destruct w; cbn [live] in *; try (by apply H2). destruct Hl as [?|(?&?&?)]; [left; by apply H1 | right; auto]. Qed.

  (** what the marked items demand *)
  Definition newclosed (c c' : ctx) : Prop := forall o w, m !! o = Some w ->
    match w with
    | VSimple id load op k ins =>
        (id ∈ cnodes c' -> id ∉ cnodes c -> Forall (lv c') ins) /\
        (load = true -> k <> 0 -> o ∈ couts c' -> o ∉ couts c -> forall x, ins !! k = Some x -> lv c' x)
    | _ => o ∈ couts c' -> o ∉ couts c -> Forall (lv c') (mark_next w)
    end.
  Definition snd_ctx (c : ctx) : Prop :=
    (forall id, id ∈ cnodes c -> exists o load op k ins, (o, VSimple id load op k ins) ∈ defs t /\ needed t o /\ (load = false \/ k = 0)) /\
    (forall o, o ∈ couts c -> needed t o).
  Definition post (c c' : ctx) : Prop := ext c c' /\ newclosed c c'.

  Lemma Forall_lv_ext c c' l : ext c c' -> Forall (lv c) l -> Forall (lv c') l.
  Proof using. clear Hnd Hid. intros He H. eapply Forall_impl; [exact H|]. intros x. by apply lv_ext. Qed.
  Lemma post_refl c : post c c.
  Proof using. clear Hnd Hid. split; [split; done|]. intros o w Hw. destruct w; try (intros; done). Qed.
  Lemma newclosed_trans c1 c2 c3 : ext c2 c3 -> newclosed c1 c2 -> newclosed c2 c3 -> newclosed c1 c3.
  Proof using.
    clear Hnd Hid. intros He H1 H2 o w Hw. specialize (H1 o w Hw). specialize (H2 o w Hw).
    destruct w; try (intros Ha Hb; destruct (decide (o ∈ couts c2)); [eapply Forall_lv_ext; eauto | eauto]).
    destruct H1 as [H1 H1'], H2 as [H2 H2']. split.
    - intros Ha Hb. destruct (decide (id ∈ cnodes c2)); [eapply Forall_lv_ext; eauto | eauto].
    - intros Hl Hk Ha Hb x Hx. destruct (decide (o ∈ couts c2)); [eapply lv_ext; [exact He|]; eauto | eauto].
  Qed.
  Lemma ext_trans c1 c2 c3 : ext c1 c2 -> ext c2 c3 -> ext c1 c3.
  Proof using. clear Hnd Hid. intros [? ?] [? ?]. split; etrans; eauto. Qed.
  Lemma post_trans c1 c2 c3 : post c1 c2 -> post c2 c3 -> post c1 c3.
  Proof using. clear Hnd Hid. intros [? ?] [? ?]. split; [eapply ext_trans; eauto | eapply newclosed_trans; eauto]. Qed.

  Definition ids : gset nat := list_to_set (omap (fun d : oid * view => match d.2 with VSimple id _ _ _ _ => Some id | _ => None end) (defs t)).
  Definition keys : gset nat := list_to_set (defs t).*1.
  Definition todo (c : ctx) : nat := size (ids ∖ cnodes c) + size (keys ∖ couts c).
  Lemma todo_ext c c' : ext c c' -> todo c' <= todo c.
  Proof using. clear Hnd Hid. intros [H1 H2]. unfold todo. apply Nat.add_le_mono; apply subseteq_size; by apply difference_mono_l. Qed.
  Lemma todo_node o id l op k ins c : m !! o = Some (VSimple id l op k ins) -> id ∉ cnodes c -> todo (mark_node id c) < todo c.
  Proof using Hnd.
    clear Hid. intros Hm Hn. unfold todo. cbn [mark_node cnodes couts]. apply Nat.add_lt_mono_r. apply subset_size.
    assert (id ∈ ids). { unfold ids. apply elem_of_list_to_set, elem_of_list_omap. exists (o, VSimple id l op k ins). split; [by apply m_iff | done]. }
    by apply diff_lemma.
  Qed.
  Lemma todo_out o w c : m !! o = Some w -> o ∉ couts c -> todo (mark_out o c) < todo c.
  Proof using Hnd.
    clear Hid. intros Hm Hn. unfold todo. cbn [mark_out cnodes couts]. apply Nat.add_lt_mono_l. apply subset_size.
    assert (o ∈ keys). { unfold keys. apply elem_of_list_to_set. apply m_iff in Hm. apply elem_of_fst. eauto. }
    by apply diff_lemma.
  Qed.
  Lemma todo_bound c : todo c < fuel_for t.
  Proof using.
    clear Hnd Hid. unfold todo, fuel_for.
    assert (H1 : size (ids ∖ cnodes c) <= length (defs t)).
    { etrans; [apply subseteq_size, subseteq_difference_l; reflexivity|]. unfold ids. etrans; [apply size_list_le|]. apply omap_length. }
    assert (H2 : size (keys ∖ couts c) <= length (defs t)).
    { etrans; [apply subseteq_size, subseteq_difference_l; reflexivity|]. unfold keys. etrans; [apply size_list_le|]. by rewrite fmap_length. }
    lia.
  Qed.

  Definition good (f : oid -> ctx -> option ctx) (b : nat) : Prop := forall o c, todo c < b -> exists c', f o c = Some c' /\ post c c' /\ lv c' o /\ (needed t o -> snd_ctx c -> snd_ctx c').
  Lemma fold_good f b l c : good f b -> todo c < b -> exists c', foldl (fun c o => c ← c; f o c) (Some c) l = Some c' /\ post c c' /\ Forall (lv c') l /\ (Forall (needed t) l -> snd_ctx c -> snd_ctx c').
  Proof using.
    clear Hnd Hid. intros Hf. revert c. induction l as [|x l IH]; intros c Hc; cbn [foldl].
    - exists c. split; [done|]. split; [apply post_refl|]. split; [constructor | auto].
    - destruct (Hf x c Hc) as (c1 & H1 & Hp & Hl & Hs). cbn [mbind option_bind]. rewrite H1.
      destruct (IH c1) as (c2 & H2 & Hp2 & Hl2 & Hs2). { pose proof (todo_ext _ _ (proj1 Hp)). lia. }
      exists c2. split; [done|]. split; [eapply post_trans; eauto|]. split.
      + constructor; [eapply lv_ext; [apply Hp2 | done] | done].
      + rewrite Forall_cons. intros [? ?] ?. auto.
  Qed.
  Lemma mark_good fuel : good (mark m fuel) fuel.
  Proof using Hnd Hid.
    induction fuel as [|fuel IH]; intros o c Hc; [lia|].
    cbn [mark]. destruct (m !! o) as [w|] eqn:Ew.
    2:{ exists c. split; [done|]. split; [apply post_refl|]. split; [|auto]. intros w Hw. congruence. }
    assert (Hns : is_simple w = false -> exists c', (if decide (o ∈ couts c) then Some c else foldl (fun c o => c ← c; mark m fuel o c) (Some (mark_out o c)) (mark_next w)) = Some c' /\ post c c' /\ lv c' o /\ (needed t o -> snd_ctx c -> snd_ctx c')).
    { intros Hn. destruct (decide (o ∈ couts c)) as [Hi|Hi].
      - exists c. split; [done|]. split; [apply post_refl|]. split; [|auto]. intros w' Hw'. assert (w' = w) as -> by congruence. destruct w; try done.
      - pose proof (todo_out o w c Ew Hi) as Ht.
        destruct (fold_good _ _ (mark_next w) (mark_out o c) IH ltac:(lia)) as (c' & H' & [He Hp] & Hl & Hs).
        assert (Ho : o ∈ couts c') by (apply He; cbn; set_solver).
        exists c'. split; [done|]. split; [split|split].
        + eapply ext_trans; [|exact He]. split; cbn; set_solver.
        + intros o' w' Hw'. specialize (Hp o' w' Hw').
          destruct (decide (o' = o)) as [->|Hne].
          * rewrite Ew in Hw'. injection Hw' as <-. destruct w; try discriminate; intros; exact Hl.
          * assert (Hno : o' ∉ couts c -> o' ∉ couts (mark_out o c)) by (cbn; set_solver). destruct w'; try (intros; apply Hp; auto).
            destruct Hp as [Hp1 Hp2]. split; [intros; apply Hp1; auto | intros; eapply Hp2; eauto].
        + intros w' Hw'. assert (w' = w) as -> by congruence. destruct w; try done.
        + intros Hnd' Hsc. apply Hs.
          * apply Forall_forall. intros d Hd. eapply needed_use; [exact Hnd' | apply m_iff; exact Ew|]. destruct w; try discriminate; cbn [mark_next uses] in *; try exact Hd.
            -- revert Hd. rewrite !elem_of_cons. intros [?|Hd]; [auto|right]. apply elem_of_list_fmap in Hd as ([x c0] & -> & Hd). apply elem_of_list_fmap in Hd as ([[x' c'0] es] & [= -> ->] & Hd).
               apply elem_of_list_In, in_map_iff. exists (x', c'0, es). split; [done|]. by apply elem_of_list_In.
            -- destruct res; [exact Hd|]. apply elem_of_list_singleton in Hd as ->. left.
          * destruct Hsc as [Hs1 Hs2]. split; [exact Hs1|]. intros y. cbn [mark_out couts]. rewrite elem_of_union, elem_of_singleton. intros [->|?]; auto. }
    destruct w as [id load op k ins| | | | | | | | |]; try (apply Hns; reflexivity).
    clear Hns. destruct (decide (id ∈ cnodes c)) as [Hi|Hi].
    { exists c. split; [done|]. split; [apply post_refl|]. split; [|auto]. intros w Hw. assert (w = VSimple id load op k ins) as -> by congruence. by left. }
    destruct (load && negb (k =? 0)) eqn:Elk.
    - apply andb_true_iff in Elk as [-> Ek%negb_true_iff]. apply Nat.eqb_neq in Ek.
      destruct (decide (o ∈ couts c)) as [Ho|Ho].
      { exists c. split; [done|]. split; [apply post_refl|]. split; [|auto]. intros w Hw. assert (w = VSimple id true op k ins) as -> by congruence. right. auto. }
      pose proof (todo_out o _ c Ew Ho) as Ht.
      destruct (fold_good _ _ (option_list (ins !! k)) (mark_out o c) IH ltac:(lia)) as (c' & H' & [He Hp] & Hl & Hs).
      assert (Hoc : o ∈ couts c') by (apply He; cbn; set_solver).
      exists c'. split; [done|]. split; [split|split].
      + eapply ext_trans; [|exact He]. split; cbn; set_solver.
      + intros o' w' Hw'. specialize (Hp o' w' Hw').
        assert (Hno : o' <> o -> o' ∉ couts c -> o' ∉ couts (mark_out o c)) by (cbn; set_solver).
        destruct (decide (o' = o)) as [->|Hne].
        * rewrite Ew in Hw'. injection Hw' as <-. destruct Hp as [Hp1 Hp2]. split; [intros; apply Hp1; auto|].
          intros _ _ _ _ x Hx. rewrite Hx in Hl. inversion Hl; subst; assumption.
        * destruct w'; try (intros; apply Hp; auto). destruct Hp as [Hp1 Hp2]. split; [intros; apply Hp1; auto | intros; eapply Hp2; eauto].
      + intros w' Hw'. assert (w' = VSimple id true op k ins) as -> by congruence. right. auto.
      + intros Hnd' Hsc. apply Hs.
        * apply Forall_forall. intros d Hd. eapply needed_use; [exact Hnd' | apply m_iff; exact Ew|]. cbn [uses]. destruct k; [done | exact Hd].
        * destruct Hsc as [Hs1 Hs2]. split; [exact Hs1|]. intros y. cbn [mark_out couts]. rewrite elem_of_union, elem_of_singleton. intros [->|?]; auto.
    - pose proof (todo_node o _ _ _ _ _ c Ew Hi) as Ht.
      destruct (fold_good _ _ ins (mark_node id c) IH ltac:(lia)) as (c' & H' & [He Hp] & Hl & Hs).
      assert (Hic : id ∈ cnodes c') by (apply He; cbn; set_solver).
      exists c'. split; [done|]. split; [split|split].
      + eapply ext_trans; [|exact He]. split; cbn; set_solver.
      + intros o' w' Hw'. specialize (Hp o' w' Hw').
        destruct w' as [id' load' op' k' ins'| | | | | | | | |]; try (intros; apply Hp; auto). destruct Hp as [Hp1 Hp2]. split; [|intros; eapply Hp2; eauto].
        intros Ha Hb. destruct (decide (id' = id)) as [->|Hne].
        * apply m_iff in Hw'. pose proof (proj1 (m_iff _ _) Ew) as Ew'. destruct (Hid _ _ _ _ _ _ _ _ _ _ _ Hw' Ew') as (_ & _ & ->). exact Hl.
        * apply Hp1; [done|]. cbn; set_solver.
      + intros w' Hw'. assert (w' = VSimple id load op k ins) as -> by congruence. by left.
      + intros Hnd' Hsc. apply Hs.
        * apply Forall_forall. intros d Hd. eapply needed_use; [exact Hnd' | apply m_iff; exact Ew|]. cbn [uses]. destruct load; [|done]. destruct k; [done | discriminate Elk].
        * destruct Hsc as [Hs1 Hs2]. split; [|exact Hs2]. intros y. cbn [mark_node cnodes]. rewrite elem_of_union, elem_of_singleton. intros [->|?]; [|auto].
          exists o, load, op, k, ins. split; [by apply m_iff|]. split; [done|]. destruct load; [right | by left]. destruct k; [done | discriminate Elk].
  Qed.

  (** the context after marking *)
  Definition closed (c : ctx) : Prop := forall o w, (o, w) ∈ defs t ->
    match w with
    | VSimple id load op k ins =>
        (id ∈ cnodes c -> Forall (lv c) ins) /\ (load = true -> k <> 0 -> o ∈ couts c -> forall x, ins !! k = Some x -> lv c x)
    | _ => o ∈ couts c -> Forall (lv c) (mark_next w)
    end.
  Lemma mark_region_ok : exists c, mark_region m (fuel_for t) t (Ctx ∅ ∅) = Some c /\ closed c /\ Forall (lv c) (rres t) /\ snd_ctx c.
  Proof using Hnd Hid.
    destruct (fold_good _ _ (rres t) (Ctx ∅ ∅) (mark_good _) (todo_bound _)) as (c & H & [_ Hp] & Hl & Hs).
    exists c. split; [exact H|]. split; [|split; [exact Hl|]].
    - intros o w Hw. apply m_iff in Hw. specialize (Hp o w Hw). destruct w; try (intros; apply Hp; [done | cbn; set_solver]).
      destruct Hp as [Hp1 Hp2]. split; [intros; apply Hp1; [done | cbn; set_solver] | intros; eapply Hp2; eauto; cbn; set_solver].
    - apply Hs; [|split; cbn; set_solver]. apply Forall_forall. intros x Hx. by constructor.
  Qed.
End Mark.
