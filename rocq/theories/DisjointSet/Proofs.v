(** Refinement of the DisjointSet model to a partition. *)
From stdpp Require Import gmap list sets fin_maps fin_sets.
From Coq Require Import Lia.
From Verif.DisjointSet Require Import Model Spec.

(** Cheap list-membership solver. *)
Ltac mem :=
  lazymatch goal with
  | |- _ ∧ _ => split; mem
  | |- _ ∈ _ ++ _ => apply elem_of_app; first [left; solve [mem] | right; solve [mem]]
  | |- _ ∈ _ :: _ => apply elem_of_cons; first [left; done | right; solve [mem]]
  | |- _ ∨ _ => first [left; solve [mem] | right; solve [mem]]
  | |- _ => done
  end.

Section proofs.
  Context {K : Type} `{Countable K}.
  Implicit Types (m : gmap K (setrec K)) (l : list K) (cls : list (list K)).

  Fixpoint chain m (prev : K) l : Prop :=
    match l with
    | [] => True
    | x :: l' => (next_ <$> m !! prev) = Some x ∧ chain m x l'
    end.

  (** A class, represented by its members in iteration order (root last). *)
  Definition memok m l (x : K) : Prop :=
    ∃ rx, m !! x = Some rx ∧ 1 ≤ size_ rx ≤ length l ∧ parent_ rx ∈ l ∧
          (parent_ rx = x → last l = Some x) ∧
          (parent_ rx ≠ x → ∃ rp, m !! parent_ rx = Some rp ∧ 2 * size_ rx ≤ size_ rp).
  Definition classok m l : Prop :=
    (∃ r rr, last l = Some r ∧ m !! r = Some rr ∧ parent_ rr = r ∧
             size_ rr = length l ∧ chain m r l) ∧
    (∀ x, x ∈ l → memok m l x).

  Definition Inv (s : ds K) cls : Prop :=
    NoDup (concat cls) ∧
    (∀ x, is_Some (values s !! x) ↔ x ∈ concat cls) ∧
    (∀ l, l ∈ cls → classok (values s) l) ∧
    (∀ x, x ∈ roots s ↔ ∃ l, l ∈ cls ∧ last l = Some x).

  Lemma last_elem l x : last l = Some x → x ∈ l.
  Proof. intros Hl. apply last_Some in Hl as [l' ->]. set_solver. Qed.

  Lemma elem_concat (x : K) cls : x ∈ concat cls ↔ ∃ l, l ∈ cls ∧ x ∈ l.
  Proof.
    induction cls as [|l cls IH]; simpl.
    - split; [intros Hx; inversion Hx|intros (l & Hl & _); inversion Hl].
    - rewrite elem_of_app, IH. split.
      + intros [Hx|(l' & Hl & Hx)]; [exists l|exists l']; split; auto; set_solver.
      + intros (l' & Hl & Hx). apply elem_of_cons in Hl as [->|Hl]; [by left|].
        right. eauto.
  Qed.

  Lemma concat_perm cls cls' : cls ≡ₚ cls' → concat cls ≡ₚ concat cls'.
  Proof.
    induction 1 as [|x l l' Hp IH|x y l|l l' l'' ? IH1 ? IH2]; simpl.
    - done.
    - by rewrite IH.
    - rewrite !app_assoc. by rewrite (Permutation_app_comm y x).
    - by etransitivity.
  Qed.

  Lemma Inv_perm s cls cls' : cls ≡ₚ cls' → Inv s cls → Inv s cls'.
  Proof.
    intros Hp (Hnd & Hdom & Hcl & Hr).
    split_and!.
    - by rewrite <- (concat_perm _ _ Hp).
    - intros x. rewrite Hdom. by rewrite (concat_perm _ _ Hp).
    - intros l Hl. apply Hcl. by rewrite Hp.
    - intros x. rewrite Hr. by setoid_rewrite Hp.
  Qed.

  (** The size bound: class sizes never exceed the number of objects. *)
  Lemma dom_size s cls : Inv s cls → base.size (values s) = length (concat cls).
  Proof.
    intros (Hnd & Hdom & _).
    rewrite <- (size_dom (values s)).
    assert (dom (values s) ≡@{gset K} list_to_set (concat cls)) as Heq.
    { intros x. rewrite elem_of_dom, Hdom. by rewrite elem_of_list_to_set. }
    rewrite Heq. by apply size_list_to_set.
  Qed.

  Lemma class_le cls l : l ∈ cls → length l ≤ length (concat cls).
  Proof.
    induction 1 as [l cls|l l' cls Hin IH]; simpl; rewrite app_length; lia.
  Qed.

  Lemma classok_nonnil m l : classok m l → l ≠ [].
  Proof. intros ((r & rr & Hl & _) & _) ->. done. Qed.

  Lemma lookup_alter_set_parent m (this y gp : K) r :
    alter (set_parent gp) this m !! y = Some r →
    ∃ r0, m !! y = Some r0 ∧ size_ r = size_ r0 ∧ next_ r = next_ r0.
  Proof.
    intros Hy. destruct (decide (this = y)) as [->|Hne].
    - rewrite lookup_alter in Hy. destruct (m !! y); simplify_eq/=. eauto.
    - rewrite lookup_alter_ne in Hy by done. eauto.
  Qed.

  Lemma next_alter_parent m (this y gp : K) :
    (next_ <$> alter (set_parent gp) this m !! y) = (next_ <$> m !! y).
  Proof.
    destruct (decide (this = y)) as [->|Hne].
    - rewrite lookup_alter. destruct (m !! y); done.
    - by rewrite lookup_alter_ne.
  Qed.

  Lemma chain_ext m m' prev l :
    (∀ y, y = prev ∨ y ∈ l → (next_ <$> m' !! y) = (next_ <$> m !! y)) →
    chain m prev l → chain m' prev l.
  Proof.
    revert prev. induction l as [|x l IH]; intros prev Hext; simpl; [done|].
    intros [Hn Hc]. split.
    - rewrite Hext by auto. done.
    - apply IH; [|done]. intros y Hy. apply Hext. set_solver.
  Qed.

  (** Redirecting [this] (not the root) to a member with at least double size
      keeps the class well-formed. *)
  Lemma classok_set_parent m l this gp rt rg :
    classok m l → this ∈ l → gp ∈ l → this ≠ gp → last l ≠ Some this →
    m !! this = Some rt → m !! gp = Some rg → 2 * size_ rt ≤ size_ rg →
    classok (alter (set_parent gp) this m) l.
  Proof.
    intros (Hroot & Hmem) Hthis Hgp Hne Hlast Hrt Hrg Hsz.
    split.
    - destruct Hroot as (r & rr & Hl & Hr & Hp & Hs & Hc).
      exists r, rr. split_and!; try done.
      + rewrite lookup_alter_ne; [done|]. intros ->. congruence.
      + eapply chain_ext; [|exact Hc]. intros y _. apply next_alter_parent.
    - intros x Hx. destruct (Hmem x Hx) as (rx & Hrx & Hsx & Hpx & Hpl & Hpd).
      destruct (decide (this = x)) as [->|Hnx].
      + exists (set_parent gp rx). rewrite lookup_alter, Hrx. simpl.
        simplify_eq. split_and!; try done; try lia.
        intros _. exists rg. split; [|done].
        by rewrite lookup_alter_ne.
      + exists rx. rewrite lookup_alter_ne by done. split_and!; try done; try lia.
        intros Hq. destruct (Hpd Hq) as (rp & Hrp & Hs2).
        destruct (decide (this = parent_ rx)) as [Ht|Ht].
        * exists (set_parent gp rp). rewrite <- Ht in Hrp |- *.
          rewrite lookup_alter, Hrp. done.
        * exists rp. rewrite lookup_alter_ne by done. done.
  Qed.

  Lemma classok_other m l this gp :
    classok m l → this ∉ l → classok (alter (set_parent gp) this m) l.
  Proof.
    intros (Hroot & Hmem) Hthis. split.
    - destruct Hroot as (r & rr & Hl & Hr & Hp & Hs & Hc).
      exists r, rr. split_and!; try done.
      + rewrite lookup_alter_ne; [done|]. intros ->. apply Hthis. by apply last_elem.
      + eapply chain_ext; [|exact Hc]. intros y _. apply next_alter_parent.
    - intros x Hx. destruct (Hmem x Hx) as (rx & Hrx & Hsx & Hpx & Hpl & Hpd).
      exists rx. rewrite lookup_alter_ne by set_solver. split_and!; try done; try lia.
      intros Hq. destruct (Hpd Hq) as (rp & Hrp & Hs2). exists rp.
      rewrite lookup_alter_ne by set_solver. done.
  Qed.

  (** What root() may change: parents inside the class only. *)
  Definition same_but_parents m m' : Prop :=
    (∀ y, is_Some (m' !! y) ↔ is_Some (m !! y)) ∧
    (∀ y, (next_ <$> m' !! y) = (next_ <$> m !! y)) ∧
    (∀ y, (size_ <$> m' !! y) = (size_ <$> m !! y)).

  Lemma same_refl m : same_but_parents m m.
  Proof. done. Qed.
  Lemma same_trans m1 m2 m3 :
    same_but_parents m1 m2 → same_but_parents m2 m3 → same_but_parents m1 m3.
  Proof.
    intros (A1&B1&C1) (A2&B2&C2). split_and!; intros y.
    - by rewrite A2. - by rewrite B2. - by rewrite C2.
  Qed.
  Lemma same_alter m this gp : same_but_parents m (alter (set_parent gp) this m).
  Proof.
    split_and!; intros y.
    - by rewrite lookup_alter_is_Some.
    - apply next_alter_parent.
    - destruct (decide (this = y)) as [->|Hne].
      + rewrite lookup_alter. destruct (m !! y); done.
      + by rewrite lookup_alter_ne.
  Qed.

  Lemma root_loop_ok fuel m l this child parent rt rc :
    classok m l → this ∈ l → child ∈ l →
    m !! this = Some rt → m !! child = Some rc →
    parent_ rt = parent → parent_ rc = parent →
    (this = child ∨ 2 * size_ rt ≤ size_ rc) →
    length l < 2 ^ (S fuel) * size_ rc →
    ∃ m' r, root_loop fuel m this child parent = Some (m', r) ∧
      last l = Some r ∧ classok m' l ∧ same_but_parents m m' ∧
      (∀ l', this ∉ l' → classok m l' → classok m' l').
  Proof.
    revert m child parent rt rc.
    induction fuel as [|fuel IH]; intros m child parent rt rc Hok Hthis Hchild
      Hrt Hrc Hpt Hpc Hcase Hfuel; simpl.
    - destruct (decide (parent = child)) as [->|Hne].
      + exists m, child. split_and!; try done.
        destruct Hok as [_ Hmem]. destruct (Hmem child Hchild) as (r' & Hr' & ? & ? & Hl & ?).
        simplify_eq. by apply Hl.
      + exfalso. destruct Hok as [_ Hmem].
        destruct (Hmem child Hchild) as (r' & Hr' & ? & Hpin & Hl & Hd). simplify_eq.
        destruct Hd as (rp & Hrp & Hs); [congruence|].
        destruct (Hmem _ Hpin) as (r2 & Hr2 & Hs2 & _). simplify_eq.
        simpl in Hfuel. lia.
    - destruct (decide (parent = child)) as [->|Hne].
      + exists m, child. split_and!; try done.
        destruct Hok as [_ Hmem]. destruct (Hmem child Hchild) as (r' & Hr' & ? & ? & Hl & ?).
        simplify_eq. by apply Hl.
      + pose proof Hok as [_ Hmem].
        destruct (Hmem child Hchild) as (r' & Hr' & Hsc & Hpin & Hl & Hd).
        rewrite Hrc in Hr'. injection Hr' as <-. rewrite Hpc in Hpin, Hl, Hd.
        destruct (Hd Hne) as (rp & Hrp & Hs).
        destruct (Hmem _ Hpin) as (r2 & Hr2 & Hs2 & Hgp & Hl2 & Hd2).
        rewrite Hrp in Hr2. injection Hr2 as <-.
        rewrite Hrp. simpl.
        (* sizes: this << parent <= gp *)
        assert (2 * size_ rt ≤ size_ rp) as Hszp.
        { destruct Hcase as [->|Hc]; [|lia]. rewrite Hrt in Hrc. injection Hrc as <-. lia. }
        destruct (Hmem this Hthis) as (rt' & Hrt' & Hst & _).
        rewrite Hrt in Hrt'. injection Hrt' as <-.
        assert (this ≠ parent) as Htp.
        { intros ->. rewrite Hrt in Hrp. injection Hrp as <-. lia. }
        assert (∃ rg, m !! parent_ rp = Some rg ∧ size_ rp ≤ size_ rg ∧
                      (parent_ rp ≠ parent → 2 * size_ rp ≤ size_ rg)) as (rg & Hrg & Hsg & Hsg').
        { destruct (decide (parent_ rp = parent)) as [Heq|Hq].
          - exists rp. rewrite Heq. split_and!; [done|lia|done].
          - destruct (Hd2 Hq) as (rg & Hrg & Hz). exists rg. split_and!; [done|lia|lia]. }
        assert (this ≠ parent_ rp) as Htg.
        { intros Heq. rewrite <- Heq, Hrt in Hrg. injection Hrg as <-. lia. }
        assert (last l ≠ Some this) as Hnl.
        { intros Hla. destruct Hok as [(r & rr & Hla' & Hrr & _ & Hsr & _) _].
          rewrite Hla in Hla'. injection Hla' as <-. rewrite Hrt in Hrr. injection Hrr as <-.
          lia. }
        set (m1 := alter (set_parent (parent_ rp)) this m).
        assert (classok m1 l) as Hok1.
        { eapply classok_set_parent; eauto. lia. }
        assert (m1 !! parent = Some rp) as Hp1.
        { unfold m1. by rewrite lookup_alter_ne. }
        destruct (IH m1 parent (parent_ rp) (set_parent (parent_ rp) rt) rp) as
          (m' & r & Hrun & Hlast & Hok' & Hsame & Hoth); try done.
        * unfold m1. rewrite lookup_alter, Hrt. done.
        * right. simpl. lia.
        * rewrite Nat.pow_succ_r' in Hfuel. nia.
        * exists m', r. split_and!; try done.
          -- eapply same_trans; [apply same_alter|exact Hsame].
          -- intros l' Hnin Hok2. apply Hoth; [done|]. by apply classok_other.
  Qed.

  Lemma classes_disjoint s cls l l' x :
    Inv s cls → l ∈ cls → l' ∈ cls → x ∈ l → x ∈ l' → l = l'.
  Proof.
    intros (Hnd & _ & _ & _). revert l l'.
    induction cls as [|c cls IH]; intros l l' Hl Hl' Hx Hx'; [inversion Hl|].
    simpl in Hnd. apply NoDup_app in Hnd as (Hc & Hdis & Hnd).
    apply elem_of_cons in Hl as [->|Hl]; apply elem_of_cons in Hl' as [->|Hl']; [done| | |].
    - exfalso. apply (Hdis x Hx). apply elem_concat. eauto.
    - exfalso. apply (Hdis x Hx'). apply elem_concat. eauto.
    - eapply IH; eauto.
  Qed.

  Lemma pow2_gt n : n < 2 ^ n.
  Proof. apply Nat.pow_gt_lin_r. lia. Qed.

  (** root() with any sufficient fuel, on a state satisfying the invariant. *)
  Lemma root_loop_inv s cls l x fuel rx :
    Inv s cls → l ∈ cls → x ∈ l → values s !! x = Some rx →
    nvalues s < 2 ^ (S fuel) →
    ∃ m' r, root_loop fuel (values s) x x (parent_ rx) = Some (m', r) ∧ last l = Some r ∧
      Inv (DS m' (roots s)) cls ∧ same_but_parents (values s) m'.
  Proof.
    intros HI Hl Hx Hrx Hf.
    pose proof HI as (Hnd & Hdom & Hcl & Hr).
    destruct (Hcl l Hl) as [Hro Hmem].
    destruct (Hmem x Hx) as (rx' & Hrx' & Hs & _). simplify_eq.
    destruct (root_loop_ok fuel (values s) l x x (parent_ rx) rx rx)
      as (m' & r & Hrun & Hla & Hok & Hsame & Hoth); try done.
    { by left. }
    { unfold nvalues in Hf. rewrite (dom_size s cls HI) in Hf.
      pose proof (class_le cls l Hl). nia. }
    exists m', r. split_and!; try done.
    split_and!; simpl; try done.
    - intros y. destruct Hsame as (Hd & _). rewrite Hd. apply Hdom.
    - intros l' Hl'. destruct (decide (l = l')) as [->|Hne]; [done|].
      apply Hoth; [|by apply Hcl].
      intros Hx'. apply Hne. eapply classes_disjoint; eauto.
  Qed.

  Lemma find_ok s cls l x :
    Inv s cls → l ∈ cls → x ∈ l →
    ∃ m' r, find s x = Some (DS m' (roots s), r) ∧ last l = Some r ∧
            Inv (DS m' (roots s)) cls ∧ same_but_parents (values s) m'.
  Proof.
    intros HI Hl Hx. pose proof HI as (_ & _ & Hcl & _).
    destruct (Hcl l Hl) as [_ Hmem]. destruct (Hmem x Hx) as (rx & Hrx & _).
    destruct (root_loop_inv s cls l x (base.size (values s)) rx) as (m' & r & Hrun & Hrest); try done.
    { pose proof (pow2_gt (S (base.size (values s)))). unfold nvalues. lia. }
    exists m', r. split; [|done]. unfold find, root. rewrite Hrx. simpl. by rewrite Hrun.
  Qed.

  Lemma insert_ok s cls x :
    Inv s cls →
    (x ∈ concat cls ∧ insert s x = (s, x)) ∨
    (x ∉ concat cls ∧ ∃ s', insert s x = (s', x) ∧ Inv s' ([x] :: cls)).
  Proof.
    intros HI. pose proof HI as (Hnd & Hdom & Hcl & Hr).
    unfold insert, contains.
    destruct (bool_decide (is_Some (values s !! x))) eqn:Hb.
    - apply bool_decide_eq_true in Hb. left. split; [by apply Hdom|done].
    - apply bool_decide_eq_false in Hb. right.
      assert (x ∉ concat cls) as Hx by (by rewrite <- Hdom).
      assert (values s !! x = None) as Hn by (by apply eq_None_not_Some).
      split; [done|]. eexists; split; [done|].
      split_and!; simpl.
      + apply NoDup_cons. done.
      + intros y. rewrite lookup_insert_is_Some, elem_of_cons, <- Hdom.
        destruct (decide (x = y)); naive_solver.
      + intros l Hl. apply elem_of_cons in Hl as [->|Hl].
        * split.
          -- exists x, (SetRec 1 x x). rewrite lookup_insert. simpl. rewrite lookup_insert. done.
          -- intros y Hy. apply elem_of_list_singleton in Hy as ->.
             exists (SetRec 1 x x). rewrite lookup_insert. simpl.
             split_and!; try done; try lia. set_solver.
        * assert (x ∉ l) as Hxl.
          { intros ?. apply Hx, elem_concat. eauto. }
          destruct (Hcl l Hl) as [(r & rr & Hla & Hrr & Hp & Hs & Hc) Hmem].
          split.
          -- exists r, rr. split_and!; try done.
             ++ rewrite lookup_insert_ne; [done|]. intros ->. apply Hxl. by apply last_elem.
             ++ eapply chain_ext; [|exact Hc]. intros y [->|Hy].
                ** rewrite lookup_insert_ne; [done|]. intros ->. apply Hxl. by apply last_elem.
                ** rewrite lookup_insert_ne; [done|]. intros ->. done.
          -- intros y Hy. destruct (Hmem y Hy) as (ry & Hry & Hsy & Hpy & Hpl & Hpd).
             exists ry. rewrite lookup_insert_ne by (intros ->; done).
             split_and!; try done; try lia.
             intros Hq. destruct (Hpd Hq) as (rp & Hrp & ?). exists rp.
             rewrite lookup_insert_ne; [done|]. intros ->. done.
      + intros y. rewrite elem_of_union, elem_of_singleton, Hr. split.
        * intros [->|(l & Hl & Hla)]; [exists [x]|exists l]; split; auto; set_solver.
        * intros (l & Hl & Hla). apply elem_of_cons in Hl as [->|Hl]; [|eauto].
          simpl in Hla. left. congruence.
  Qed.

  Lemma chain_app m prev l1 l2 r :
    last (prev :: l1) = Some r →
    chain m prev l1 → chain m r l2 → chain m prev (l1 ++ l2).
  Proof.
    revert prev. induction l1 as [|x l1 IH]; intros prev Hla; simpl.
    - intros _. simpl in Hla. by injection Hla as ->.
    - intros [Hn Hc] H2. split; [done|]. by apply IH.
  Qed.

  Lemma chain_app_inv m prev l1 x :
    chain m prev (l1 ++ [x]) → chain m prev l1.
  Proof.
    revert prev. induction l1 as [|y l1 IH]; intros prev; simpl; [done|].
    intros [? ?]. eauto.
  Qed.

  (** A chain only reads the next_ fields of its start and of all but its last
      element. *)
  Lemma chain_ext_init m m' prev l x :
    (∀ y, y = prev ∨ y ∈ l → (next_ <$> m' !! y) = (next_ <$> m !! y)) →
    chain m prev (l ++ [x]) → chain m' prev (l ++ [x]).
  Proof.
    revert prev. induction l as [|z l IH]; intros prev Hext; simpl.
    - intros [Hn _]. split; [|done]. rewrite Hext by auto. done.
    - intros [Hn Hc]. split.
      + rewrite Hext by auto. done.
      + apply IH; [|done]. intros y Hy. apply Hext. set_solver.
  Qed.

  Lemma chain_start m m' p p' l x :
    chain m p (l ++ [x]) →
    (next_ <$> m' !! p') = (next_ <$> m !! p) →
    (∀ y, y ∈ l → (next_ <$> m' !! y) = (next_ <$> m !! y)) →
    chain m' p' (l ++ [x]).
  Proof.
    intros Hc Hp Hext. destruct l as [|z l]; simpl in *.
    - rewrite Hp. done.
    - destruct Hc as [Hn Hc]. split; [by rewrite Hp|].
      eapply chain_ext_init; [|exact Hc]. intros y [->|Hy]; apply Hext.
      + apply elem_of_cons. by left.
      + apply elem_of_cons. by right.
  Qed.

  Lemma link_ok s cls l1 l2 r1 r2 s1 s2 q1 q2 (m : gmap K (setrec K)) :
    Inv s (l1 :: l2 :: cls) →
    last l1 = Some r1 → last l2 = Some r2 →
    values s !! r1 = Some s1 → values s !! r2 = Some s2 →
    size_ s2 ≤ size_ s1 →
    q1 = next_ s1 → q2 = next_ s2 →
    m = alter (set_size (size_ s1 + size_ s2)) r1
          (alter (set_parent r1) r2
             (alter (set_next q1) r2 (alter (set_next q2) r1 (values s)))) →
    Inv (DS m (roots s ∖ {[r2]})) ((l2 ++ l1) :: cls).
  Proof.
    intros HI Hla1 Hla2 Hs1 Hs2 Hle -> -> Hm.
    pose proof HI as (Hnd & Hdom & Hcl & Hr).
    simpl in Hnd.
    assert (l1 ∈ l1 :: l2 :: cls) as Hin1 by mem.
    assert (l2 ∈ l1 :: l2 :: cls) as Hin2 by mem.
    apply NoDup_app in Hnd as (Hnd1 & Hd1 & Hnd2).
    apply NoDup_app in Hnd2 as (Hnd2 & Hd2 & Hnd3).
    pose proof (last_elem _ _ Hla1) as Hr1. pose proof (last_elem _ _ Hla2) as Hr2.
    assert (r1 ≠ r2) as Hne.
    { intros ->. apply (Hd1 r2 Hr1). apply elem_of_app. by left. }
    destruct (Hcl l1 Hin1) as [(r1' & s1' & Hl1' & Hs1' & Hp1 & Hz1 & Hc1) Hm1].
    rewrite Hla1 in Hl1'. injection Hl1' as <-. rewrite Hs1 in Hs1'. injection Hs1' as <-.
    destruct (Hcl l2 Hin2) as [(r2' & s2' & Hl2' & Hs2' & Hp2 & Hz2 & Hc2) Hm2].
    rewrite Hla2 in Hl2'. injection Hl2' as <-. rewrite Hs2 in Hs2'. injection Hs2' as <-.
    assert (m !! r1 = Some (SetRec (size_ s1 + size_ s2) (next_ s2) r1)) as Em1.
    { rewrite Hm. rewrite lookup_alter, !lookup_alter_ne, lookup_alter, Hs1 by done.
      simpl. unfold set_size, set_next. simpl. by rewrite Hp1. }
    assert (m !! r2 = Some (SetRec (size_ s2) (next_ s1) r1)) as Em2.
    { rewrite Hm. rewrite lookup_alter_ne by done. rewrite !lookup_alter.
      rewrite lookup_alter_ne, Hs2 by done. done. }
    assert (∀ y, y ≠ r1 → y ≠ r2 → m !! y = values s !! y) as Em.
    { intros y ??. rewrite Hm. by rewrite !lookup_alter_ne. }
    clear Hm.
    assert (∀ y, is_Some (m !! y) ↔ is_Some (values s !! y)) as Edom.
    { intros y. destruct (decide (y = r1)) as [->|]; [rewrite Em1, Hs1; naive_solver|].
      destruct (decide (y = r2)) as [->|]; [rewrite Em2, Hs2; naive_solver|].
      by rewrite Em. }
    split_and!; simpl.
    - rewrite <- app_assoc. apply NoDup_app. split_and!; [done| |].
      + intros x Hx [Hx1|Hx2]%elem_of_app.
        * apply (Hd1 x Hx1). apply elem_of_app. by left.
        * by apply (Hd2 x Hx).
      + apply NoDup_app. split_and!; [done| |done].
        intros x Hx Hx2. apply (Hd1 x Hx). apply elem_of_app. by right.
    - intros x. rewrite Edom, Hdom. simpl. rewrite !elem_of_app. tauto.
    - intros l Hl. apply elem_of_cons in Hl as [->|Hl].
      + split.
        * exists r1. eexists. split_and!.
          -- rewrite last_app, Hla1. done.
          -- exact Em1.
          -- done.
          -- simpl. rewrite app_length. lia.
          -- pose proof Hla1 as HA1. pose proof Hla2 as HA2.
             apply last_Some in HA1 as [l1' E1]. apply last_Some in HA2 as [l2' E2].
             assert (∀ y, y ∈ l1' → y ≠ r1 ∧ y ≠ r2) as HN1.
             { intros y Hy. rewrite E1 in Hnd1, Hd1. split; intros ->.
               - apply NoDup_app in Hnd1 as (_ & Hdd & _). apply (Hdd r1 Hy).
                 apply elem_of_list_singleton. done.
               - apply (Hd1 r2); [apply elem_of_app; by left|]. apply elem_of_app. by left. }
             assert (∀ y, y ∈ l2' → y ≠ r1 ∧ y ≠ r2) as HN2.
             { intros y Hy. rewrite E2 in Hnd2, Hd1. split; intros ->.
               - apply (Hd1 r1); [done|]. apply elem_of_app. left. apply elem_of_app. by left.
               - apply NoDup_app in Hnd2 as (_ & Hdd & _). apply (Hdd r2 Hy).
                 apply elem_of_list_singleton. done. }
             eapply chain_app with (r := r2).
             ++ rewrite E2, app_comm_cons, last_snoc. done.
             ++ rewrite E2 in Hc2 |- *. eapply chain_start; [exact Hc2| |].
                ** rewrite Em1, Hs2. done.
                ** intros y Hy. destruct (HN2 y Hy). by rewrite Em.
             ++ rewrite E1 in Hc1 |- *. eapply chain_start; [exact Hc1| |].
                ** rewrite Em2, Hs1. done.
                ** intros y Hy. destruct (HN1 y Hy). by rewrite Em.
        * intros x Hx. destruct (decide (x = r1)) as [->|Hx1].
          { eexists. split; [exact Em1|]. simpl. rewrite app_length.
            destruct (Hm1 r1 Hr1) as (? & ? & ? & _). simplify_eq.
            split_and!; try lia; try done. rewrite last_app, Hla1. done. }
          destruct (decide (x = r2)) as [->|Hx2].
          { eexists. split; [exact Em2|]. simpl. rewrite app_length.
            destruct (Hm2 r2 Hr2) as (? & ? & ? & _). simplify_eq.
            split_and!; try lia; [mem|congruence|].
            intros _. eexists. split; [exact Em1|]. simpl. lia. }
          assert (∃ rx, values s !! x = Some rx ∧ 1 ≤ size_ rx ≤ length l1 + length l2 ∧
                  parent_ rx ∈ l2 ++ l1 ∧ parent_ rx ≠ x ∧
                  ∃ rp, values s !! parent_ rx = Some rp ∧ 2 * size_ rx ≤ size_ rp) as
              (rx & Hrx & Hsx & Hpx & Hnx & rp & Hrp & Hd).
          { apply elem_of_app in Hx as [Hx|Hx].
            - destruct (Hm2 x Hx) as (rx & Hrx & Hsx & Hpx & Hpl & Hpd).
              assert (parent_ rx ≠ x) as Hn.
              { intros Hq. specialize (Hpl Hq). congruence. }
              exists rx. split_and!; try done; try lia; [mem|]. by apply Hpd.
            - destruct (Hm1 x Hx) as (rx & Hrx & Hsx & Hpx & Hpl & Hpd).
              assert (parent_ rx ≠ x) as Hn.
              { intros Hq. specialize (Hpl Hq). congruence. }
              exists rx. split_and!; try done; try lia; [mem|]. by apply Hpd. }
          exists rx. rewrite Em by done. rewrite app_length. split_and!; try done; try lia.
          intros _. destruct (decide (parent_ rx = r1)) as [Hq|Hq].
          { rewrite Hq in *. eexists. split; [exact Em1|]. simpl. simplify_eq. lia. }
          destruct (decide (parent_ rx = r2)) as [Hq'|Hq'].
          { rewrite Hq' in *. eexists. split; [exact Em2|]. simpl. simplify_eq. lia. }
          exists rp. by rewrite Em.
      + assert (∀ y, y ∈ l → y ≠ r1 ∧ y ≠ r2) as Hnot.
        { intros y Hy. split; intros ->.
          - apply (Hd1 r1 Hr1). apply elem_of_app. right. apply elem_concat. eauto.
          - apply (Hd2 r2 Hr2). apply elem_concat. eauto. }
        destruct (Hcl l) as [(r & rr & Hla & Hrr & Hp & Hs & Hc) Hmem]; [mem|].
        split.
        * exists r, rr. split_and!; try done.
          -- destruct (Hnot r); [by apply last_elem|]. by rewrite Em.
          -- eapply chain_ext; [|exact Hc]. intros y Hy.
             destruct (Hnot y); [destruct Hy as [->|]; [by apply last_elem|done]|].
             by rewrite Em.
        * intros y Hy. destruct (Hmem y Hy) as (ry & Hry & Hsy & Hpy & Hpl & Hpd).
          destruct (Hnot y Hy). exists ry. rewrite Em by done.
          split_and!; try done; try lia.
          intros Hq. destruct (Hpd Hq) as (rp & Hrp & ?). exists rp.
          destruct (Hnot _ Hpy). by rewrite Em.
    - intros x. rewrite elem_of_difference, elem_of_singleton, Hr. split.
      + intros [(l & Hl & Hla) Hx]. apply elem_of_cons in Hl as [->|Hl].
        { exists (l2 ++ l1). split; [mem|]. rewrite last_app, Hla. done. }
        apply elem_of_cons in Hl as [->|Hl]; [congruence|].
        exists l. split; [mem|done].
      + intros (l & Hl & Hla). apply elem_of_cons in Hl as [->|Hl].
        * rewrite last_app, Hla1 in Hla. injection Hla as <-.
          split; [|done]. exists l1. done.
        * split; [exists l; split; [mem|done]|].
          intros ->. apply (Hd2 r2 Hr2). apply elem_concat. exists l.
          split; [done|]. by apply last_elem.
  Qed.

  Lemma same_lookup m m' x rx :
    same_but_parents m m' → m !! x = Some rx →
    ∃ rx', m' !! x = Some rx' ∧ size_ rx' = size_ rx ∧ next_ rx' = next_ rx.
  Proof.
    intros (Hd & Hn & Hs) Hx.
    destruct (m' !! x) as [rx'|] eqn:E.
    - exists rx'. specialize (Hn x). specialize (Hs x). rewrite E, Hx in *. naive_solver.
    - specialize (Hd x). rewrite E, Hx in Hd. destruct Hd as [_ Hd].
      destruct Hd; [eauto|done].
  Qed.

  Lemma merge_ok s cls l1 l2 e1 e2 :
    Inv s cls → l1 ∈ cls → l2 ∈ cls → e1 ∈ l1 → e2 ∈ l2 →
    ∃ s' r, merge s e1 e2 = Some (s', r) ∧
      ((l1 = l2 ∧ Inv s' cls ∧ last l1 = Some r) ∨
       (l1 ≠ l2 ∧ ∃ cls' l, cls ≡ₚ l1 :: l2 :: cls' ∧ (l = l1 ++ l2 ∨ l = l2 ++ l1) ∧
          last l = Some r ∧ Inv s' (l :: cls'))).
  Proof.
    intros HI Hl1 Hl2 He1 He2.
    destruct (find_ok s cls l1 e1) as (m1 & r1 & Hf1 & Hla1 & HI1 & Hsm1); try done.
    destruct (find_ok (DS m1 (roots s)) cls l2 e2) as (m2 & r2 & Hf2 & Hla2 & HI2 & Hsm2); try done.
    unfold merge. rewrite Hf1. simpl. rewrite Hf2. simpl.
    destruct (decide (r1 = r2)) as [->|Hne].
    - eexists _, _. split; [done|]. left.
      assert (l1 = l2) as ->.
      { eapply (classes_disjoint _ cls l1 l2 r2 HI); try done; by apply last_elem. }
      done.
    - pose proof HI2 as (_ & _ & Hcl2 & _). simpl in *.
      destruct (Hcl2 l1 Hl1) as [(r1' & s1 & E1 & Hs1 & _ & Hz1 & _) _].
      rewrite Hla1 in E1. injection E1 as <-.
      destruct (Hcl2 l2 Hl2) as [(r2' & s2 & E2 & Hs2 & _ & Hz2 & _) _].
      rewrite Hla2 in E2. injection E2 as <-.
      rewrite Hs1, Hs2. simpl.
      assert (l1 ≠ l2) as Hnl by (intros ->; congruence).
      assert (∃ cls', cls ≡ₚ l1 :: l2 :: cls') as [cls' Hp].
      { apply elem_of_Permutation in Hl1 as [c1 Hc1].
        assert (l2 ∈ c1) as Hl2'.
        { rewrite Hc1 in Hl2. apply elem_of_cons in Hl2 as [?|?]; [by subst|done]. }
        apply elem_of_Permutation in Hl2' as [c2 Hc2].
        exists c2. by rewrite Hc1, Hc2. }
      destruct (decide (size_ s1 < size_ s2)) as [Hlt|Hge]; rewrite Hs1, Hs2; simpl.
      + eexists _, _. split; [done|]. right. split; [done|].
        exists cls', (l1 ++ l2). split_and!; [done|by left|by rewrite last_app, Hla2|].
        eapply (link_ok (DS m2 (roots s)) cls' l2 l1 r2 r1 s2 s1); try done; try lia.
        * eapply Inv_perm; [|exact HI2]. rewrite Hp. by constructor.
        * simpl. f_equal. f_equal. lia.
      + eexists _, _. split; [done|]. right. split; [done|].
        exists cls', (l2 ++ l1). split_and!; [done|by right|by rewrite last_app, Hla1|].
        eapply (link_ok (DS m2 (roots s)) cls' l1 l2 r1 r2 s1 s2); try done; try lia.
        eapply Inv_perm; [|exact HI2]. done.
  Qed.

  Lemma iterate_ok m l0 l n fuel :
    classok m l0 → NoDup l0 → (∃ pre, l0 = pre ++ n :: l) →
    chain m n l → length (n :: l) ≤ fuel →
    iterate fuel m n = Some (n :: l).
  Proof.
    intros Hok Hnd. revert n fuel.
    induction l as [|x l IH]; intros n fuel [pre Hpre] Hc Hf; simpl in Hf;
      destruct fuel as [|fuel]; try lia; simpl.
    - destruct Hok as [(r & rr & Hla & Hrr & Hp & _) _].
      assert (r = n) as ->. { rewrite Hpre, last_snoc in Hla. congruence. }
      unfold is_root. rewrite Hrr. simpl. rewrite Hp.
      rewrite bool_decide_eq_true_2 by done. done.
    - pose proof Hok as [_ Hmem].
      destruct (Hmem n) as (rn & Hrn & _ & _ & Hl & _); [rewrite Hpre; apply elem_of_app; right; apply elem_of_list_here|].
      unfold is_root. rewrite Hrn. simpl. rewrite bool_decide_eq_false_2.
      + simpl in Hc. rewrite Hrn in Hc. simpl in Hc. destruct Hc as [Hn Hc].
        injection Hn as ->. rewrite (IH x fuel); [done| |done|simpl; lia].
        exists (pre ++ [n]). rewrite Hpre. by rewrite <- app_assoc.
      + intros Hq. specialize (Hl Hq). rewrite Hpre in Hl.
        apply last_Some in Hl as [l' Hl'].
        destruct (exists_last (l := x :: l)) as (l'' & z & Hz); [done|].
        rewrite Hz in *. rewrite app_comm_cons, app_assoc in Hl'.
        apply app_inj_tail in Hl' as [_ ->].
        rewrite Hpre in Hnd. apply NoDup_app in Hnd as (_ & _ & Hnd).
        apply NoDup_cons in Hnd as [Hnd _]. apply Hnd, elem_of_app. right. apply elem_of_list_here.
  Qed.

  Lemma class_NoDup s cls l : Inv s cls → l ∈ cls → NoDup l.
  Proof.
    intros (Hnd & _) Hl. apply elem_of_Permutation in Hl as [c Hc].
    rewrite (concat_perm _ _ Hc) in Hnd. simpl in Hnd. by apply NoDup_app in Hnd as (? & _).
  Qed.

  Lemma members_ok s cls l x :
    Inv s cls → l ∈ cls → x ∈ l →
    ∃ s', members s x = Some (s', l) ∧ Inv s' cls ∧ roots s' = roots s.
  Proof.
    intros HI Hl Hx.
    destruct (find_ok s cls l x) as (m & r & Hf & Hla & HI' & Hsm); try done.
    unfold members. rewrite Hf. simpl.
    pose proof HI' as (_ & _ & Hcl & _). simpl in Hcl.
    pose proof (Hcl l Hl) as Hok.
    destruct Hok as [(r' & rr & E & Hrr & Hp & Hs & Hc) Hmem].
    rewrite Hla in E. injection E as <-. rewrite Hrr. simpl.
    destruct l as [|h t]; [done|]. simpl in Hc. rewrite Hrr in Hc. simpl in Hc.
    destruct Hc as [Hh Hc]. injection Hh as ->.
    rewrite (iterate_ok m (h :: t) t h); [by eexists| | | |done|].
    - by apply Hcl.
    - by eapply class_NoDup.
    - by exists [].
    - pose proof (dom_size _ _ HI') as Hd. simpl in Hd. rewrite Hd. by apply class_le.
  Qed.

  Lemma nmembers_ok s cls l x :
    Inv s cls → l ∈ cls → x ∈ l →
    ∃ s', nmembers s x = Some (s', length l) ∧ Inv s' cls ∧ roots s' = roots s.
  Proof.
    intros HI Hl Hx.
    destruct (find_ok s cls l x) as (m & r & Hf & Hla & HI' & Hsm); try done.
    unfold nmembers. rewrite Hf. simpl.
    pose proof HI' as (_ & _ & Hcl & _). simpl in Hcl.
    destruct (Hcl l Hl) as [(r' & rr & E & Hrr & Hp & Hs & Hc) Hmem].
    rewrite Hla in E. injection E as <-. rewrite Hrr. simpl. rewrite Hs. by eexists.
  Qed.

  Lemma Inv_empty : Inv empty_ds [].
  Proof.
    split_and!; simpl.
    - constructor.
    - intros x. rewrite lookup_empty. split; [by intros [? ?]|intros Hx; inversion Hx].
    - intros l Hl. inversion Hl.
    - intros x. split; [mem|]. intros (l & Hl & _). inversion Hl.
  Qed.

  (** ** Connection with the history specification *)
  Definition same_class cls x y : Prop := ∃ l, l ∈ cls ∧ x ∈ l ∧ y ∈ l.

  Definition Rel (ops : list (op K)) (s : ds K) cls : Prop :=
    Inv s cls ∧ (∀ x, x ∈ concat cls ↔ present ops x) ∧
    (∀ x y, same_class cls x y ↔ connected ops x y).

  Lemma since_clear_snoc (ops : list (op K)) o :
    since_clear (ops ++ [o]) = match o with OClear => [] | _ => since_clear ops ++ [o] end.
  Proof. unfold since_clear. rewrite fold_left_app. simpl. by destruct o. Qed.

  Lemma connected_mono (ops ops' : list (op K)) x y :
    (∀ o, o ∈ since_clear ops → o ∈ since_clear ops') →
    connected ops x y → connected ops' x y.
  Proof.
    intros Hsub. induction 1 as [x Hp|x y Hm|x y _ IH|x y z _ IH1 _ IH2].
    - apply conn_refl. destruct Hp; [left|right]; auto.
    - apply conn_merge. auto.
    - by apply conn_sym.
    - by eapply conn_trans.
  Qed.

  (** An operation which neither inserts a new element nor merges leaves the
      specification relation unchanged. *)
  Lemma Rel_query ops s s' cls o :
    Rel ops s cls → Inv s' cls →
    match o with
    | OFind _ | OMembers _ | ONMembers _ => True
    | OInsert x | OFindOrInsert x => x ∈ concat cls
    | OMerge x y => same_class cls x y
    | OClear => False
    end →
    Rel (ops ++ [o]) s' cls.
  Proof.
    intros (HI & Hp & Hc) HI' Ho.
    assert (∀ x, present (ops ++ [o]) x ↔ present ops x) as Hpres.
    { intros x. unfold present. rewrite since_clear_snoc.
      destruct o as [z|z|z|z w|z|z|]; try done; rewrite !elem_of_app, !elem_of_list_singleton;
        naive_solver. }
    split_and!; [done| |].
    - intros x. by rewrite Hp, Hpres.
    - intros x y. rewrite Hc. split.
      + apply connected_mono. intros o' Ho'. rewrite since_clear_snoc.
        destruct o; try done; apply elem_of_app; by left.
      + induction 1 as [x Hx|x y Hm|x y _ IH|x y z _ IH1 _ IH2].
        * apply conn_refl. by apply Hpres.
        * rewrite since_clear_snoc in Hm.
          destruct o as [z|z|z|z w|z|z|]; try done; apply elem_of_app in Hm as [Hm|Hm];
            try (apply conn_merge; done); apply elem_of_list_singleton in Hm; simplify_eq.
          by apply Hc.
        * by apply conn_sym.
        * by eapply conn_trans.
  Qed.

  Lemma Rel_insert ops s s' cls o x :
    Rel ops s cls → x ∉ concat cls → Inv s' ([x] :: cls) →
    (o = OInsert x ∨ o = OFindOrInsert x) →
    Rel (ops ++ [o]) s' ([x] :: cls).
  Proof.
    intros (HI & Hp & Hc) Hx HI' Ho.
    assert (since_clear (ops ++ [o]) = since_clear ops ++ [o]) as Hsc.
    { rewrite since_clear_snoc. by destruct Ho as [->| ->]. }
    assert (∀ y, present (ops ++ [o]) y ↔ y = x ∨ present ops y) as Hpres.
    { intros y. unfold present. rewrite Hsc, !elem_of_app, !elem_of_list_singleton.
      destruct Ho as [-> | ->]; naive_solver. }
    split_and!; [done| |].
    - intros y. simpl. rewrite elem_of_cons, Hpres, Hp. done.
    - intros y z. split.
      + intros (l & Hl & Hy & Hz). apply elem_of_cons in Hl as [->|Hl].
        * apply elem_of_list_singleton in Hy as ->. apply elem_of_list_singleton in Hz as ->.
          apply conn_refl, Hpres. by left.
        * assert (same_class cls y z) as Hs by (by exists l).
          apply Hc in Hs. eapply connected_mono; [|exact Hs].
          intros o' Ho'. rewrite Hsc. apply elem_of_app. by left.
      + induction 1 as [y Hy|y z Hm|y z _ IH|y z w _ IH1 _ IH2].
        * apply Hpres in Hy as [->|Hy].
          -- exists [x]. mem.
          -- apply Hp, elem_concat in Hy as (l & Hl & Hy). exists l. mem.
        * rewrite Hsc in Hm. apply elem_of_app in Hm as [Hm|Hm].
          -- apply conn_merge in Hm. apply Hc in Hm as (l & Hl & ? & ?). exists l. mem.
          -- apply elem_of_list_singleton in Hm. destruct Ho; congruence.
        * destruct IH as (l & ? & ? & ?). by exists l.
        * destruct IH1 as (l & Hl & Hy & Hz). destruct IH2 as (l' & Hl' & Hz' & Hw).
          assert (l = l') as -> by (eapply classes_disjoint; eauto).
          by exists l'.
  Qed.

  Lemma Rel_merge ops s s' cls cls' l l1 l2 x y :
    Rel ops s cls → cls ≡ₚ l1 :: l2 :: cls' → (l = l1 ++ l2 ∨ l = l2 ++ l1) →
    x ∈ l1 → y ∈ l2 → Inv s' (l :: cls') →
    Rel (ops ++ [OMerge x y]) s' (l :: cls').
  Proof.
    intros (HI & Hp & Hc) Hperm Hl Hx Hy HI'.
    assert (since_clear (ops ++ [OMerge x y]) = since_clear ops ++ [OMerge x y]) as Hsc
      by (by rewrite since_clear_snoc).
    assert (∀ z, z ∈ l ↔ z ∈ l1 ∨ z ∈ l2) as Hin.
    { intros z. destruct Hl as [-> | ->]; rewrite elem_of_app; tauto. }
    assert (∀ z, present (ops ++ [OMerge x y]) z ↔ present ops z) as Hpres.
    { intros z. unfold present. rewrite Hsc, !elem_of_app, !elem_of_list_singleton.
      naive_solver. }
    assert (∀ a b, connected ops a b → connected (ops ++ [OMerge x y]) a b) as Hmono.
    { intros a b. apply connected_mono. intros o Ho. rewrite Hsc. apply elem_of_app. by left. }
    assert (∀ a, a ∈ l1 → connected (ops ++ [OMerge x y]) a x) as H1.
    { intros a Ha. apply Hmono, Hc. exists l1. rewrite Hperm. mem. }
    assert (∀ a, a ∈ l2 → connected (ops ++ [OMerge x y]) a y) as H2.
    { intros a Ha. apply Hmono, Hc. exists l2. rewrite Hperm. mem. }
    assert (connected (ops ++ [OMerge x y]) x y) as Hxy.
    { apply conn_merge. rewrite Hsc. mem. }
    split_and!; [done| |].
    - intros z. rewrite Hpres, <- Hp. rewrite (concat_perm _ _ Hperm). simpl.
      rewrite !elem_of_app, Hin. tauto.
    - intros a b. split.
      + intros (k & Hk & Ha & Hb). apply elem_of_cons in Hk as [->|Hk].
        * apply Hin in Ha, Hb.
          assert (∀ a, a ∈ l1 ∨ a ∈ l2 → connected (ops ++ [OMerge x y]) a x) as Hax.
          { intros c [Hc1|Hc2]; [by apply H1|].
            eapply conn_trans; [by apply H2|]. by apply conn_sym. }
          eapply conn_trans; [by apply Hax|]. apply conn_sym. by apply Hax.
        * apply Hmono, Hc. exists k. rewrite Hperm. mem.
      + induction 1 as [z Hz|z w Hm|z w _ IH|z w v _ IH1 _ IH2].
        * apply Hpres, Hp in Hz. rewrite (concat_perm _ _ Hperm) in Hz. simpl in Hz.
          rewrite app_assoc, elem_of_app in Hz. destruct Hz as [Hz|Hz].
          -- exists l. apply elem_of_app in Hz. split; [mem|]. by rewrite !Hin.
          -- apply elem_concat in Hz as (k & ? & ?). exists k. mem.
        * rewrite Hsc in Hm. apply elem_of_app in Hm as [Hm|Hm].
          -- apply conn_merge in Hm. apply Hc in Hm as (k & Hk & Ha & Hb).
             rewrite Hperm in Hk. apply elem_of_cons in Hk as [->|Hk].
             { exists l. split; [mem|]. rewrite !Hin. mem. }
             apply elem_of_cons in Hk as [->|Hk].
             { exists l. split; [mem|]. rewrite !Hin. mem. }
             exists k. mem.
          -- apply elem_of_list_singleton in Hm. simplify_eq. exists l. split; [mem|]. rewrite !Hin. mem.
        * destruct IH as (k & ? & ? & ?). by exists k.
        * destruct IH1 as (k & Hk & Ha & Hb). destruct IH2 as (k' & Hk' & Hb' & Hd).
          assert (k = k') as -> by (eapply (classes_disjoint s' (l :: cls')); eauto).
          by exists k'.
  Qed.

  Lemma Rel_nil : Rel [] empty_ds [].
  Proof.
    split_and!; [apply Inv_empty| |].
    - intros x. unfold present, since_clear. simpl. split; [intros Hx; inversion Hx|intros [Hx|Hx]; inversion Hx].
    - intros x y. split; [intros (l & Hl & _); inversion Hl|].
      induction 1 as [x Hx|x y Hm|x y _ IH|x y z _ IH1 _ IH2].
      + destruct Hx as [Hx|Hx]; inversion Hx.
      + inversion Hm.
      + destruct IH as (l & Hl & _). inversion Hl.
      + destruct IH1 as (l & Hl & _). inversion Hl.
  Qed.

  Lemma class_members ops s cls l x :
    Rel ops s cls → l ∈ cls → x ∈ l → ∀ y, y ∈ l ↔ connected ops x y.
  Proof.
    intros (HI & Hp & Hc) Hl Hx y. rewrite <- Hc. split.
    - intros Hy. by exists l.
    - intros (k & Hk & Ha & Hb). assert (l = k) as -> by (eapply classes_disjoint; eauto). done.
  Qed.

  Lemma present_class ops s cls x :
    Rel ops s cls → present ops x → ∃ l, l ∈ cls ∧ x ∈ l.
  Proof. intros (_ & Hp & _) Hx. by apply elem_concat, Hp. Qed.

  Lemma step_ok ops s cls o :
    Rel ops s cls → (∀ x, x ∈ args o → present ops x) →
    ∃ s' a cls', step s o = Some (s', a) ∧ Rel (ops ++ [o]) s' cls' ∧
                 answer_ok ops o (roots s') a.
  Proof.
    intros HR Hargs. pose proof HR as (HI & Hp & Hc). destruct o as [x|x|x|x y|x|x|]; simpl in *.
    - destruct (insert_ok s cls x HI) as [[Hx ->]|[Hx (s' & -> & HI')]].
      + eexists _, _, cls. split_and!; [done| |done]. by eapply Rel_query.
      + eexists _, _, _. split_and!; [done| |done]. eapply Rel_insert; eauto.
    - destruct (present_class ops s cls x HR) as (l & Hl & Hx); [apply Hargs; mem|].
      destruct (find_ok s cls l x) as (m & r & Hf & Hla & HI' & _); try done.
      rewrite Hf. simpl. eexists _, _, cls. split_and!; [done| |].
      + by eapply Rel_query.
      + exists r. split_and!; [done| |].
        * apply Hc. exists l. split_and!; try done. by apply last_elem.
        * simpl. apply HI. eauto.
    - unfold find_or_insert, contains.
      destruct (bool_decide (is_Some (values s !! x))) eqn:Hb.
      + apply bool_decide_eq_true in Hb. pose proof HI as (_ & Hdom & _).
        apply Hdom in Hb. pose proof Hb as Hb'. apply elem_concat in Hb as (l & Hl & Hx).
        destruct (find_ok s cls l x) as (m & r & Hf & Hla & HI' & _); try done.
        rewrite Hf. simpl.
        assert (Rel (ops ++ [OFindOrInsert x]) (DS m (roots s)) cls) as HR'
          by (by eapply Rel_query).
        eexists _, _, cls. split_and!; [done|done|].
        exists r. split_and!; [done| |].
        * destruct HR' as (_ & _ & Hc'). apply Hc'. exists l. split_and!; try done.
          by apply last_elem.
        * simpl. apply HI. eauto.
      + apply bool_decide_eq_false in Hb. pose proof HI as (_ & Hdom & _).
        destruct (insert_ok s cls x HI) as [[Hx _]|[Hx (s' & Hi & HI')]].
        { apply Hdom in Hx. done. }
        rewrite Hi. simpl.
        assert (Rel (ops ++ [OFindOrInsert x]) s' ([x] :: cls)) as HR'
          by (eapply Rel_insert; eauto).
        eexists _, _, _. split_and!; [done|done|].
        exists x. split_and!; [done| |].
        * destruct HR' as (_ & _ & Hc'). apply Hc'. exists [x]. mem.
        * apply HI'. exists [x]. mem.
    - destruct (present_class ops s cls x HR) as (l1 & Hl1 & Hx); [apply Hargs; mem|].
      destruct (present_class ops s cls y HR) as (l2 & Hl2 & Hy); [apply Hargs; mem|].
      destruct (merge_ok s cls l1 l2 x y) as
        (s' & r & Hm & [(-> & HI' & Hla)|(Hne & cls' & l & Hperm & Hl & Hla & HI')]); try done;
        rewrite Hm; simpl.
      + assert (Rel (ops ++ [OMerge x y]) s' cls) as HR'.
        { eapply Rel_query; [done|done|]. by exists l2. }
        eexists _, _, cls. split_and!; [done|done|].
        exists r. split_and!; [done| |].
        * destruct HR' as (_ & _ & Hc'). apply Hc'. exists l2. split_and!; try done.
          by apply last_elem.
        * apply HI'. eauto.
      + assert (Rel (ops ++ [OMerge x y]) s' (l :: cls')) as HR' by (by eapply Rel_merge).
        eexists _, _, _. split_and!; [done|done|].
        exists r. split_and!; [done| |].
        * destruct HR' as (_ & _ & Hc'). apply Hc'. exists l. split_and!; [mem| |].
          -- destruct Hl as [-> | ->]; mem.
          -- by apply last_elem.
        * apply HI'. exists l. mem.
    - destruct (present_class ops s cls x HR) as (l & Hl & Hx); [apply Hargs; mem|].
      destruct (members_ok s cls l x) as (s' & Hm & HI' & _); try done.
      rewrite Hm. simpl. eexists _, _, cls. split_and!; [done| |].
      + by eapply Rel_query.
      + exists l. split_and!; [done| |].
        * by eapply class_NoDup.
        * by eapply class_members.
    - destruct (present_class ops s cls x HR) as (l & Hl & Hx); [apply Hargs; mem|].
      destruct (nmembers_ok s cls l x) as (s' & Hm & HI' & _); try done.
      rewrite Hm. simpl. eexists _, _, cls. split_and!; [done| |].
      + by eapply Rel_query.
      + exists l. split_and!; [done| |].
        * by eapply class_NoDup.
        * by eapply class_members.
    - eexists _, _, []. split_and!; [done| |done].
      destruct Rel_nil as (A & B & C).
      assert (since_clear (ops ++ [OClear]) = []) as Hsc by (by rewrite since_clear_snoc).
      split_and!; [done| |].
      + intros z. rewrite B. unfold present. by rewrite Hsc.
      + intros a b. rewrite C. split; apply connected_mono; rewrite Hsc; done.
  Qed.

  Lemma run_app (s : ds K) ops1 ops2 :
    run s (ops1 ++ ops2) =
    ('(s1, l1) ← run s ops1; '(s2, l2) ← run s1 ops2; Some (s2, l1 ++ l2)).
  Proof.
    revert s. induction ops1 as [|o ops1 IH]; intros s; simpl.
    - by destruct (run s ops2) as [[? ?]|].
    - destruct (step s o) as [[s1 a]|]; simpl; [|done].
      rewrite IH. destruct (run s1 ops1) as [[s2 l2]|]; simpl; [|done].
      by destruct (run s2 ops2) as [[? ?]|].
  Qed.

  Lemma legal_app_inv (ops1 ops2 : list (op K)) : legal (ops1 ++ ops2) → legal ops1.
  Proof.
    intros Hl pre o post Heq x Hx. eapply (Hl pre o (post ++ ops2)); [|done].
    rewrite Heq. by rewrite <- app_assoc.
  Qed.

  Lemma run_ok (ops : list (op K)) :
    legal ops →
    ∃ s ans cls, run empty_ds ops = Some (s, ans) ∧ Rel ops s cls.
  Proof.
    induction ops as [|o ops IH] using rev_ind; intros Hl.
    - eexists _, _, _. split; [done|]. apply Rel_nil.
    - destruct IH as (s & ans & cls & Hrun & HR); [by eapply legal_app_inv|].
      destruct (step_ok ops s cls o) as (s' & a & cls' & Hs & HR' & _).
      { done. }
      { intros x Hx. by eapply (Hl ops o []). }
      exists s', (ans ++ [a]), cls'. split; [|done].
      rewrite run_app, Hrun. simpl. by rewrite Hs.
  Qed.

  Lemma run_answer (ops : list (op K)) o :
    legal (ops ++ [o]) →
    ∃ s ans s' a, run empty_ds ops = Some (s, ans) ∧
      run empty_ds (ops ++ [o]) = Some (s', ans ++ [a]) ∧
      answer_ok ops o (roots s') a.
  Proof.
    intros Hl.
    destruct (run_ok ops) as (s & ans & cls & Hrun & HR); [by eapply legal_app_inv|].
    destruct (step_ok ops s cls o) as (s' & a & cls' & Hs & HR' & Ha).
    { done. }
    { intros x Hx. by eapply (Hl ops o []). }
    exists s, ans, s', a. split_and!; [done| |done].
    rewrite run_app, Hrun. simpl. by rewrite Hs.
  Qed.

  Lemma find_iff_connected (ops : list (op K)) :
    legal ops →
    ∃ s ans, run empty_ds ops = Some (s, ans) ∧
    ∀ x y, present ops x → present ops y →
    ∃ s1 r1 s2 r2, find s x = Some (s1, r1) ∧ find s1 y = Some (s2, r2) ∧
                   (r1 = r2 ↔ connected ops x y).
  Proof.
    intros Hl. destruct (run_ok ops Hl) as (s & ans & cls & Hrun & HR).
    exists s, ans. split; [done|]. intros x y Hx Hy.
    destruct (present_class _ _ _ _ HR Hx) as (l1 & Hl1 & Hx1).
    destruct (present_class _ _ _ _ HR Hy) as (l2 & Hl2 & Hx2).
    pose proof HR as (HI & _ & Hc).
    destruct (find_ok s cls l1 x) as (m1 & r1 & Hf1 & Hla1 & HI1 & _); try done.
    destruct (find_ok (DS m1 (roots s)) cls l2 y) as (m2 & r2 & Hf2 & Hla2 & HI2 & _); try done.
    eexists _, _, _, _. split_and!; [done|done|].
    rewrite <- Hc. split.
    - intros ->. assert (l1 = l2) as ->.
      { eapply (classes_disjoint s cls l1 l2 r2); try done; by apply last_elem. }
      by exists l2.
    - intros (l & ? & ? & ?).
      assert (l1 = l) by (eapply classes_disjoint; eauto).
      assert (l2 = l) by (eapply classes_disjoint; eauto). congruence.
  Qed.

  Lemma representatives_ok (ops : list (op K)) :
    legal ops →
    ∃ s ans, run empty_ds ops = Some (s, ans) ∧
      NoDup (representatives s) ∧
      nsets s = length (representatives s) ∧
      (∀ r, r ∈ representatives s → present ops r) ∧
      (∀ x, present ops x → ∃ r, r ∈ representatives s ∧ connected ops x r ∧
            ∀ r', r' ∈ representatives s → connected ops x r' → r' = r) ∧
      (∀ xs, NoDup xs → (∀ x, x ∈ xs ↔ present ops x) → nvalues s = length xs).
  Proof.
    intros Hl. destruct (run_ok ops Hl) as (s & ans & cls & Hrun & HR).
    exists s, ans. pose proof HR as (HI & Hp & Hc).
    pose proof HI as (Hnd & Hdom & Hcl & Hr).
    unfold representatives.
    assert (∀ r, r ∈ elements (roots s) ↔ ∃ l, l ∈ cls ∧ last l = Some r) as Hre.
    { intros r. by rewrite elem_of_elements, Hr. }
    split_and!; [done| | | | |].
    - apply NoDup_elements.
    - done.
    - intros r Hin. apply Hre in Hin as (l & Hin & Hla). apply Hp, elem_concat.
      exists l. split; [done|]. by apply last_elem.
    - intros x Hx. destruct (present_class _ _ _ _ HR Hx) as (l & Hin & Hxl).
      destruct (Hcl l Hin) as [(r & rr & Hla & _) _].
      exists r. split_and!.
      + apply Hre. eauto.
      + apply Hc. exists l. split_and!; try done. by apply last_elem.
      + intros r' Hr' Hcon. apply Hc in Hcon as (l' & Hl' & Hx' & Hr'').
        assert (l = l') as <- by (eapply classes_disjoint; eauto).
        apply Hre in Hr' as (k & Hk & Hlk).
        assert (k = l) as -> by (eapply classes_disjoint; eauto using last_elem).
        congruence.
    - intros xs Hndx Hxs. unfold nvalues. rewrite (dom_size s cls HI).
      apply Permutation_length. apply NoDup_Permutation; [done|done|].
      intros x. rewrite Hxs, Hp. done.
  Qed.

  (** The number of pointer hops of find is logarithmic. *)
  Lemma find_log (ops : list (op K)) :
    legal ops →
    ∃ s ans, run empty_ds ops = Some (s, ans) ∧
    ∀ x, present ops x → ∃ rx m r s',
      values s !! x = Some rx ∧
      root_loop (Nat.log2 (nvalues s)) (values s) x x (parent_ rx) = Some (m, r) ∧
      find s x = Some (s', r) ∧ values s' = m.
  Proof.
    intros Hl. destruct (run_ok ops Hl) as (s & ans & cls & Hrun & HR).
    exists s, ans. split; [done|]. intros x Hx.
    destruct (present_class _ _ _ _ HR Hx) as (l & Hin & Hxl).
    pose proof HR as (HI & _ & _). pose proof HI as (_ & Hdom & Hcl & _).
    destruct (Hcl l Hin) as [_ Hmem]. destruct (Hmem x Hxl) as (rx & Hrx & _).
    destruct (root_loop_inv s cls l x (Nat.log2 (nvalues s)) rx) as (m & r & Hlp & Hrest);
      try done.
    { destruct (decide (nvalues s = 0)) as [->|Hnz]; [simpl; lia|].
      apply Nat.log2_spec. lia. }
    (* more fuel gives the same result *)
    assert (∀ f f' m0 c p mm rr, f ≤ f' → root_loop f m0 x c p = Some (mm, rr) →
             root_loop f' m0 x c p = Some (mm, rr)) as Hmono.
    { clear. induction f as [|f IH]; intros f' m0 c p mm rr Hle; simpl.
      - destruct (decide (p = c)) as [Heq|Hne] eqn:E; [|done]. intros ?.
        destruct f'; simpl; rewrite E; done.
      - destruct f' as [|f']; [lia|]. simpl.
        destruct (decide (p = c)); [done|].
        destruct (parent_ <$> m0 !! p); simpl; [|done]. apply IH. lia. }
    exists rx, m, r, (DS m (roots s)). split_and!; [done|done| |done].
    unfold find, root. rewrite Hrx. simpl.
    rewrite (Hmono (Nat.log2 (nvalues s)) (base.size (values s)) _ _ _ m r); [done| |done].
    unfold nvalues. destruct (decide (base.size (values s) = 0)) as [->|]; [done|].
    apply Nat.log2_le_lin. lia.
  Qed.
End proofs.
