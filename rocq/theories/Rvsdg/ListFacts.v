(** Facts about [drop_at]. *)
From stdpp Require Import base list list_numbers fin_sets gmap.
From Verif.Rvsdg Require Import Model Spec.

Lemma drop_at_lookup {A} (p : nat -> bool) (l : list A) j x : drop_at p l !! j = Some x ->
  exists i, l !! i = Some x /\ p i = false /\ forall B (l2 : list B), drop_at p l2 !! j = l2 !! i.
Proof.
  revert p j. induction l as [|a l IH]; intros p j; cbn [drop_at]; [done|]. destruct (p 0) eqn:E.
  - intros H. destruct (IH _ _ H) as (i & Hi & Hp & H2). exists (S i). split; [done|]. split; [done|]. intros B [|b l2]; cbn [drop_at]; [done|]. rewrite E. apply H2.
  - destruct j as [|j].
    + cbn. intros [= ->]. exists 0. split; [done|]. split; [done|]. intros B [|b l2]; cbn [drop_at]; [done|]. by rewrite E.
    + cbn. intros H. destruct (IH _ _ H) as (i & Hi & Hp & H2). exists (S i). split; [done|]. split; [done|]. intros B [|b l2]; cbn [drop_at]; [done|]. rewrite E. apply H2.
Qed.
Lemma drop_at_kept {A} (p : nat -> bool) (l : list A) i x : l !! i = Some x -> p i = false -> exists j, drop_at p l !! j = Some x /\ forall B (l2 : list B), drop_at p l2 !! j = l2 !! i.
Proof.
  revert p i. induction l as [|a l IH]; intros p i; [done|]. destruct i as [|i]; cbn.
  - intros [= ->] E. exists 0. rewrite E. split; [done|]. intros B [|b l2]; cbn [drop_at]; [done|]. by rewrite E.
  - intros H Hp. destruct (IH (fun i => p (S i)) i H Hp) as (j & Hj & H2). destruct (p 0) eqn:E; [exists j | exists (S j)]; (split; [done|]); intros B [|b l2]; cbn [drop_at]; rewrite ?E; try done; apply H2.
Qed.
Lemma drop_at_elem {A} (p : nat -> bool) (l : list A) x : x ∈ drop_at p l <-> exists i, l !! i = Some x /\ p i = false.
Proof.
  rewrite elem_of_list_lookup. split.
  - intros [j Hj]. destruct (drop_at_lookup _ _ _ _ Hj) as (i & ? & ? & _). eauto.
  - intros (i & Hi & Hp). destruct (drop_at_kept _ _ _ _ Hi Hp) as (j & ? & _). eauto.
Qed.
Lemma drop_at_subset {A} (p : nat -> bool) (l : list A) x : x ∈ drop_at p l -> x ∈ l.
Proof. rewrite drop_at_elem. intros (i & H & _). eapply elem_of_list_lookup_2; eauto. Qed.
Lemma drop_at_sublist {A} (p : nat -> bool) (l : list A) : drop_at p l `sublist_of` l.
Proof. revert p. induction l as [|a l IH]; intros p; cbn [drop_at]; [done|]. destruct (p 0); [by constructor | by constructor]. Qed.
Lemma drop_at_fmap {A B} (f : A -> B) (p : nat -> bool) (l : list A) : drop_at p (f <$> l) = f <$> drop_at p l.
Proof. revert p. induction l as [|a l IH]; intros p; [done|]. rewrite fmap_cons. cbn [drop_at]. rewrite IH. by destruct (p 0). Qed.
Lemma drop_at_zip {A B} (p : nat -> bool) (l : list A) (k : list B) : drop_at p (zip l k) = zip (drop_at p l) (drop_at p k) \/ length l <> length k.
Proof.
  revert p k. induction l as [|a l IH]; intros p [|b k]; [left; done | right; done | right; done|].
  cbn [drop_at zip zip_with]. destruct (IH (fun i => p (S i)) k) as [H|H]; [left | right; cbn; congruence].
  destruct (p 0); [done | cbn; by f_equal].
Qed.
Lemma drop_at_length {A B} (p : nat -> bool) (l : list A) (k : list B) : length l = length k -> length (drop_at p l) = length (drop_at p k).
Proof. revert p k. induction l as [|a l IH]; intros p [|b k]; try done. cbn [drop_at length]. intros [= H]. destruct (p 0); cbn [length]; [auto|]. f_equal. auto. Qed.
Lemma drop_at_ext {A} (p q : nat -> bool) (l : list A) : (forall i, i < length l -> p i = q i) -> drop_at p l = drop_at q l.
Proof.
  revert p q. induction l as [|a l IH]; intros p q H; [done|]. cbn [drop_at]. rewrite (H 0) by (cbn; lia).
  rewrite (IH (fun i => p (S i)) (fun i => q (S i))); [done|]. intros i Hi. apply H. cbn. lia.
Qed.
Lemma drop_at_none {A} (p : nat -> bool) (l : list A) : (forall i, i < length l -> p i = false) -> drop_at p l = l.
Proof.
  revert p. induction l as [|a l IH]; intros p H; [done|]. cbn [drop_at]. rewrite (H 0) by (cbn; lia). f_equal. apply IH. intros i Hi. apply H. cbn. lia.
Qed.
Lemma drop_at_app {A} (p : nat -> bool) (l k : list A) : drop_at p (l ++ k) = drop_at p l ++ drop_at (fun i => p (length l + i)) k.
Proof. revert p. induction l as [|a l IH]; intros p; [done|]. cbn [drop_at app length]. rewrite IH. destruct (p 0); done. Qed.
Lemma drop_at_tail {A} (p : nat -> bool) (l : list A) : p 0 = false -> tail (drop_at p l) = drop_at (fun i => p (S i)) (tail l).
Proof. destruct l; cbn [drop_at tail]; [done|]. intros ->. done. Qed.
Lemma nth_drop_at {A} (p : nat -> bool) i j (l2 : list A) d : drop_at p l2 !! j = l2 !! i -> nth j (drop_at p l2) d = nth i l2 d.
Proof. rewrite !nth_lookup. intros ->. done. Qed.
