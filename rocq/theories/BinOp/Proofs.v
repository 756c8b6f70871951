(** The reduction helpers keep the value of the operand list. *)
From stdpp Require Import base list list_numbers.
From Verif.BinOp Require Import Model Spec.

Section Fold.
  Context {V : Type} (g : V -> V -> V).
  Definition fold1 (l : list V) : option V := match l with [] => None | v :: l => Some (foldl g v l) end.
  Lemma foldl_assoc x y l : associative g -> foldl g (g x y) l = g x (foldl g y l).
  Proof. intros Ha. revert y. induction l as [|z l IH]; intros y; cbn; [done|]. by rewrite <-Ha, IH. Qed.
  Lemma fold1_mid vs u us ws : associative g -> fold1 (vs ++ foldl g u us :: ws) = fold1 (vs ++ (u :: us) ++ ws).
  Proof.
    intros Ha. destruct vs as [|v vs]; cbn; [by rewrite foldl_app|]. f_equal. rewrite !foldl_app. cbn. rewrite foldl_app. by rewrite <-foldl_assoc.
  Qed.
  Lemma fold1_perm l l' : associative g -> commutative g -> l ≡ₚ l' -> fold1 l = fold1 l'.
  Proof.
    intros Ha Hc. assert (Hx : forall x l, fold1 (x :: l) = Some (match fold1 l with Some y => g x y | None => x end)).
    { intros x [|y k]; [done|]. cbn. f_equal. by apply foldl_assoc. }
    induction 1 as [|x l l' H IH|x y l|l l' l'' H1 IH1 H2 IH2]; [done | rewrite !Hx; by rewrite IH | | by rewrite IH1].
    rewrite !Hx. destruct (fold1 l) as [z|]; f_equal; [rewrite !Ha; f_equal; apply Hc | apply Hc].
  Qed.
End Fold.

Section Helpers.
  Context {A V : Type} (red : A -> A -> option A) (val : A -> option V) (g : V -> V -> V).
  Context (Hred : forall a b c x y, red a b = Some c -> val a = Some x -> val b = Some y -> val c = Some (g x y)).
  Lemma pairwise_loop_value acc left rest vs : associative g -> mapM val (acc ++ left :: rest) = Some vs ->
    exists vs', mapM val (pairwise_loop red acc left rest) = Some vs' /\ fold1 g vs' = fold1 g vs.
  Proof using Hred.
    intros Ha. revert acc left vs. induction rest as [|r rest IH]; intros acc left vs H; cbn [pairwise_loop]; [eauto|].
    destruct (red left r) as [c|] eqn:E; [|apply IH; by rewrite <-app_assoc].
    apply mapM_Some in H. apply Forall2_app_inv_l in H as (va & vr & H1 & H2 & ->). inversion H2 as [|? x ? vr1 Hx H3]; subst. inversion H3 as [|? y ? vr2 Hy H4]; subst.
    destruct (IH acc c (va ++ g x y :: vr2)) as (vs' & H5 & H6).
    - apply mapM_Some. apply Forall2_app; [done|]. constructor; [by eapply Hred | done].
    - exists vs'. split; [done|]. rewrite H6. apply (fold1_mid g va x [y] vr2 Ha).
  Qed.
  Lemma pairwise_reduce_value args vs : associative g -> mapM val args = Some vs -> exists vs', mapM val (pairwise_reduce red args) = Some vs' /\ fold1 g vs' = fold1 g vs.
  Proof using Hred. intros Ha H. destruct args as [|a l]; [eauto|]. by apply (pairwise_loop_value [] a l). Qed.

  Lemma swap_out (args : list A) l r a b c z : l < r -> args !! l = Some a -> args !! r = Some b -> last args = Some z ->
    exists rest, args ≡ₚ a :: b :: rest /\ take (length args - 1) (<[r := z]> (<[l := c]> args)) ≡ₚ c :: rest.
  Proof using.
    intros Hlr Ha Hb Hz. assert (Hl : l < length args) by (by eapply lookup_lt_Some). assert (Hr : r < length args) by (by eapply lookup_lt_Some).
    set (L := <[l := c]> args). assert (HLb : L !! r = Some b) by (unfold L; rewrite list_lookup_insert_ne by lia; done).
    assert (HLz : last L = Some (if decide (length args = S l) then c else z)).
    { rewrite decide_False by lia. rewrite last_lookup in *. unfold L. rewrite insert_length. rewrite list_lookup_insert_ne by lia. done. } rewrite decide_False in HLz by lia.
    assert (HL : L ≡ₚ b :: take (length args - 1) (<[r := z]> L)).
    { assert (Hlen : length L = length args) by (unfold L; by rewrite insert_length). clearbody L. apply last_Some in HLz as [k ->]. rewrite app_length in Hlen. cbn in Hlen. replace (length args - 1) with (length k) by lia.
      destruct (decide (r = length k)) as [->|Hne].
      - rewrite insert_app_r_alt by lia. rewrite Nat.sub_diag. cbn. rewrite take_app. rewrite lookup_app_r, Nat.sub_diag in HLb by lia. injection HLb as ->. by rewrite Permutation_app_comm.
      - assert (Hrk : r < length k) by lia. rewrite insert_app_l by done. rewrite take_app_le by (rewrite insert_length; lia). rewrite take_ge by (rewrite insert_length; lia). rewrite lookup_app_l in HLb by done.
        rewrite <-(take_drop_middle k r b HLb) at 1. rewrite insert_take_drop by done. rewrite <-!app_assoc. cbn. rewrite (Permutation_app_comm _ [z]). rewrite <-Permutation_middle. cbn. by rewrite <-!Permutation_middle. }
    assert (HA : a :: L ≡ₚ c :: args).
    { unfold L. rewrite insert_take_drop by done. rewrite <-(take_drop_middle args l a Ha) at 3. rewrite <-!Permutation_middle. constructor. }
    assert (Hab : exists rest, args ≡ₚ a :: b :: rest).
    { assert (Hd : delete l args !! (r - 1) = Some b) by (rewrite lookup_delete_ge by lia; by replace (S (r - 1)) with r by lia). exists (delete (r - 1) (delete l args)). rewrite (delete_Permutation args l a Ha) at 1. by rewrite (delete_Permutation (delete l args) (r - 1) b Hd) at 1. }
    destruct Hab as [rest Hab]. exists rest. split; [done|]. apply (Permutation_cons_inv (a := b)). apply (Permutation_cons_inv (a := a)). rewrite <-HL, HA, Hab. exact (Permutation_middle [a; b] rest c).
  Qed.
  Lemma commutative_loop_value fuel l r args res vs : associative g -> commutative g -> l < r -> commutative_loop red fuel l r args = Some res -> mapM val args = Some vs ->
    exists vs', mapM val res = Some vs' /\ fold1 g vs' = fold1 g vs.
  Proof using Hred.
    intros Ha Hc. revert l r args vs. induction fuel as [|fuel IH]; intros l r args vs Hlr H Hvs; [done|]. cbn [commutative_loop] in H.
    destruct (args !! l) as [a|] eqn:El; [|injection H as <-; eauto]. destruct (args !! r) as [b|] eqn:Er; [|eapply IH; [|exact H|done]; lia]. destruct (red a b) as [c|] eqn:E; [|eapply IH; [|exact H|done]; lia].
    destruct (last args) as [z|] eqn:Ez; [|done]. destruct (swap_out args l r a b c z Hlr El Er Ez) as (rest & P1 & P2). apply mapM_Some in Hvs.
    destruct (Permutation_Forall2 P1 Hvs) as (vs1 & Pv & Hvs1). inversion Hvs1 as [|? x ? k1 Hx H2]; subst. inversion H2 as [|? y ? k2 Hy H3]; subst.
    assert (Hn : Forall2 (fun a v => val a = Some v) (c :: rest) (g x y :: k2)) by (constructor; [by eapply Hred | done]).
    destruct (Permutation_Forall2 (Permutation_sym P2) Hn) as (vs2 & Pv2 & Hvs2). apply mapM_Some in Hvs2. destruct (IH 0 1 _ _ Nat.lt_0_1 H Hvs2) as (vs' & R1 & R2). exists vs'. split; [done|].
    rewrite R2. rewrite (fold1_perm g _ _ Ha Hc (Permutation_sym Pv2)), (fold1_perm g _ _ Ha Hc Pv). done.
  Qed.
End Helpers.
