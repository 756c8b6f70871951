(** Termination and completeness of the commutative reduction; flattening; reduction of flattened nodes. *)
From stdpp Require Import base list list_numbers.
From Verif.BinOp Require Import Model Spec Proofs.

Section Commutative.
  Context {A : Type} (red : A -> A -> option A).
  Lemma commutative_loop_total n : forall args, length args = n -> forall k l, n - l = k -> forall m r, n - r = m -> exists fuel res, commutative_loop red fuel l r args = Some res.
  Proof.
    induction (lt_wf n) as [n _ IHn]. intros args Hn k. induction (lt_wf k) as [k _ IHk]. intros l Hk m. induction (lt_wf m) as [m _ IHm]. intros r Hm.
    destruct (args !! l) as [a|] eqn:El; [|exists 1, args; cbn [commutative_loop]; by rewrite El]. pose proof (lookup_lt_Some _ _ _ El) as Hl.
    destruct (args !! r) as [b|] eqn:Er.
    2:{ destruct (IHk (n - S l) ltac:(lia) (S l) eq_refl _ (S (S l)) eq_refl) as (fuel & res & H). exists (S fuel), res. cbn [commutative_loop]. by rewrite El, Er. }
    pose proof (lookup_lt_Some _ _ _ Er) as Hr. destruct (red a b) as [c|] eqn:E.
    2:{ destruct (IHm (n - S r) ltac:(lia) (S r) eq_refl) as (fuel & res & H). exists (S fuel), res. cbn [commutative_loop]. by rewrite El, Er, E. }
    destruct (last args) as [z|] eqn:Ez; [|apply last_None in Ez; subst args; cbn in Hl; lia].
    set (args' := take (length args - 1) (<[r := z]> (<[l := c]> args))). assert (Hlen : length args' = n - 1) by (unfold args'; rewrite take_length, !insert_length; lia).
    destruct (IHn (n - 1) ltac:(lia) args' Hlen _ 0 eq_refl _ 1 eq_refl) as (fuel & res & H). exists (S fuel), res. cbn [commutative_loop]. by rewrite El, Er, E, Ez.
  Qed.
  (** no two operands are left that could be reduced *)
  Definition reduced (args : list A) : Prop := forall i j a b, i < j -> args !! i = Some a -> args !! j = Some b -> red a b = None.
  Lemma commutative_loop_reduced fuel l r args res : l < r -> (forall i j a b, i < l -> i < j -> args !! i = Some a -> args !! j = Some b -> red a b = None) ->
    (forall j a b, l < j -> j < r -> args !! l = Some a -> args !! j = Some b -> red a b = None) -> commutative_loop red fuel l r args = Some res -> reduced res.
  Proof.
    revert l r args. induction fuel as [|fuel IH]; intros l r args Hlr H1 H2 H; [done|]. cbn [commutative_loop] in H. destruct (args !! l) as [a|] eqn:El.
    2:{ injection H as <-. intros i j a b Hij Hi Hj. eapply (H1 i j); [|done|done|done]. apply lookup_ge_None in El. apply lookup_lt_Some in Hi. lia. }
    destruct (args !! r) as [b|] eqn:Er.
    2:{ eapply IH; [| | |exact H]; [lia | | lia]. intros i j x y Hi Hij Hx Hy. destruct (decide (i = l)) as [->|]; [|eapply (H1 i j); [lia|done|done|done]]. eapply (H2 j); [done | | congruence | done]. apply lookup_ge_None in Er. apply lookup_lt_Some in Hy. lia. }
    destruct (red a b) as [c|] eqn:E.
    2:{ eapply IH; [| exact H1 | |exact H]; [lia|]. intros j x y Hj Hjr Hx Hy. destruct (decide (j = r)) as [->|]; [congruence|]. eapply (H2 j); [done | lia | congruence | done]. }
    destruct (last args) as [z|]; [|done]. eapply IH; [| | |exact H]; lia.
  Qed.
End Commutative.

(** a list whose nested flattened nodes have at least two operands *)
Fixpoint tsize (t : term) : nat := match t with Leaf _ => 1 | Bin _ a b => S (tsize a + tsize b) | Flat _ l => S (sum_list_with tsize l) end.
Lemma tsize_pos t : 0 < tsize t.
Proof. destruct t; cbn; lia. Qed.
Lemma term_ind' (P : term -> Prop) : (forall x, P (Leaf x)) -> (forall op a b, P a -> P b -> P (Bin op a b)) -> (forall op l, Forall P l -> P (Flat op l)) -> forall t, P t.
Proof. intros H1 H2 H3. fix IH 1. intros [x|op a b|op l]; [apply H1 | apply H2; apply IH|]. apply H3. induction l as [|x l IHl]; constructor; [apply IH | exact IHl]. Qed.
Lemma term_eqb_iff s : forall t, term_eqb s t = true <-> s = t.
Proof.
  induction s as [x|op a b IHa IHb|op l IH] using term_ind'; intros [y|op' a' b'|op' l']; cbn [term_eqb]; try done.
  - rewrite bool_decide_eq_true. split; congruence.
  - rewrite !andb_true_iff, bool_decide_eq_true, IHa, IHb. split; [intros [[-> ->] ->]; done | intros [= -> -> ->]; done].
  - rewrite andb_true_iff, bool_decide_eq_true. assert (Hl : (fix go (l l' : list term) := match l, l' with [], [] => true | x :: l, y :: l' => term_eqb x y && go l l' | _, _ => false end) l l' = true <-> l = l').
    { revert l'. induction IH as [|x l Hx Hl IHl]; intros [|y l']; try done. rewrite andb_true_iff, Hx, IHl. split; [intros [-> ->]; done | intros [= -> ->]; done]. }
    rewrite Hl. split; [intros [-> ->]; done | intros [= -> ->]; done].
Qed.
Lemma terms_eqb_iff l l' : terms_eqb l l' = true <-> l = l'.
Proof. revert l'. induction l as [|x l IH]; intros [|y l']; cbn [terms_eqb]; try done. rewrite andb_true_iff, term_eqb_iff, IH. split; [intros [-> ->]; done | intros [= -> ->]; done]. Qed.
Lemma sum_app l l' : sum_list_with tsize (l ++ l') = sum_list_with tsize l + sum_list_with tsize l'.
Proof. induction l as [|x l IH]; cbn; [done|]. lia. Qed.
Lemma sub_size op t l : sub_operands op t = Some l -> sum_list_with tsize l < tsize t.
Proof. destruct t as [x|op' a b|op' k]; cbn; [done | |]; intros H; case_decide; try done; injection H as <-; cbn; lia. Qed.
Lemma sub_wide op t l : wide t -> sub_operands op t = Some l -> Forall wide l /\ 2 <= length l.
Proof. intros Ht E. destruct t as [x|op' a b|op' k]; cbn in E; [done | |]; case_decide; try done; injection E as <-; inversion Ht; subst; [split; [by repeat constructor | done] | done]. Qed.
Lemma flatten_total op todo acc : Forall wide todo -> exists fuel res, flatten_loop (sub_operands op) fuel acc todo = Some res.
Proof.
  remember (sum_list_with tsize todo) as n eqn:Hn. revert acc todo Hn. induction (lt_wf n) as [n _ IH]. intros acc todo Hn Hw. destruct todo as [|t todo]; [exists 1, acc; done|]. cbn in Hn. inversion Hw as [|? ? Ht Htodo]; subst. pose proof (tsize_pos t) as Hp.
  destruct (sub_operands op t) as [l|] eqn:E.
  - pose proof (sub_size _ _ _ E) as Hs. pose proof (sub_wide _ _ _ Ht E) as Hl.
    destruct l as [|a l]; [destruct Hl as [_ Hl]; cbn in Hl; lia|]. destruct (IH (sum_list_with tsize (a :: l ++ todo))) with (acc := acc) (todo := a :: l ++ todo) as (fuel & res & H).
    + change (a :: l ++ todo) with ((a :: l) ++ todo). rewrite sum_app. lia.
    + done.
    + change (a :: l ++ todo) with ((a :: l) ++ todo). apply Forall_app. split; [apply Hl | done].
    + exists (S fuel), res. cbn [flatten_loop]. by rewrite E.
  - destruct (IH (sum_list_with tsize todo) ltac:(lia) (acc ++ [t]) todo eq_refl Htodo) as (fuel & res & H). exists (S fuel), res. cbn [flatten_loop]. by rewrite E.
Qed.
Lemma flatten_flat op fuel acc todo res : Forall (fun t => sub_operands op t = None) acc -> flatten_loop (sub_operands op) fuel acc todo = Some res -> Forall (fun t => sub_operands op t = None) res.
Proof.
  revert acc todo. induction fuel as [|fuel IH]; intros acc todo Ha H; [done|]. cbn [flatten_loop] in H. destruct todo as [|t todo]; [by injection H as <-|]. destruct (sub_operands op t) as [[|a l]|] eqn:E; [done | by eapply IH |]. eapply IH; [|exact H]. apply Forall_app. split; [done | by constructor].
Qed.
Lemma flatten_length op fuel acc todo res : Forall wide todo -> flatten_loop (sub_operands op) fuel acc todo = Some res -> length acc + length todo <= length res /\ (Exists (fun t => sub_operands op t <> None) todo -> length acc + length todo < length res) /\ (Forall (fun t => sub_operands op t = None) todo -> res = acc ++ todo).
Proof.
  revert acc todo. induction fuel as [|fuel IH]; intros acc todo Hw H; [done|]. cbn [flatten_loop] in H. destruct todo as [|t todo]; [injection H as <-; split; [cbn; lia|]; split; [intros He; by apply Exists_nil in He | by rewrite app_nil_r]|]. inversion Hw as [|? ? Ht Htodo]; subst.
  destruct (sub_operands op t) as [[|a l]|] eqn:E; [done | |].
  - destruct (sub_wide _ _ _ Ht E) as [Hl1 Hl2]. destruct (IH acc (a :: l ++ todo)) as (R1 & R2 & R3); [change (a :: l ++ todo) with ((a :: l) ++ todo); by apply Forall_app | done|]. cbn in R1, Hl2. rewrite app_length in R1. split; [cbn; lia|]. split; [intros _; cbn; lia|]. intros Hf. inversion Hf; subst. congruence.
  - destruct (IH (acc ++ [t]) todo Htodo H) as (R1 & R2 & R3). rewrite app_length in R1, R2. cbn in R1, R2. split; [cbn; lia|]. split; [|intros Hf; inversion Hf; subst; rewrite R3 by done; by rewrite <-app_assoc].
    intros He. inversion He as [? ? Hx|? ? Hx]; subst; [congruence|]. specialize (R2 Hx). cbn. lia.
Qed.
Section Flatten.
  Context {V : Type} (f : nat -> V -> V -> V) (env : nat -> V).
  Notation val := (value f env).
  Lemma sub_value op t l w : sub_operands op t = Some l -> val t = Some w -> exists u us, mapM val l = Some (u :: us) /\ w = foldl (f op) u us.
  Proof.
    destruct t as [x|op' a b|op' k]; cbn [sub_operands]; [done | |]; intros H; case_decide; try done; subst op'; injection H as <-; intros Hw; cbn [value] in Hw.
    - destruct (val a) as [x|] eqn:Ea; cbn [mbind option_bind] in Hw; [|done]. destruct (val b) as [y|] eqn:Eb; cbn [mbind option_bind] in Hw; [|done]. injection Hw as <-. exists x, [y]. split; [|done]. cbn. by rewrite Ea, Eb.
    - destruct (mapM val k) as [[|u us]|] eqn:E; cbn [mbind option_bind] in Hw; [done | | done]. injection Hw as <-. eauto.
  Qed.
  Lemma flatten_value op fuel acc todo res vs : associative (f op) -> flatten_loop (sub_operands op) fuel acc todo = Some res -> mapM val (acc ++ todo) = Some vs ->
    exists vs', mapM val res = Some vs' /\ fold1 (f op) vs' = fold1 (f op) vs.
  Proof.
    intros Ha. revert acc todo vs. induction fuel as [|fuel IH]; intros acc todo vs H Hv; [done|]. cbn [flatten_loop] in H. destruct todo as [|t todo]; [injection H as <-; rewrite app_nil_r in Hv; eauto|].
    destruct (sub_operands op t) as [[|a l]|] eqn:E; [done | |].
    - apply mapM_Some in Hv. apply Forall2_app_inv_l in Hv as (va & vr & H1 & H2 & ->). inversion H2 as [|? w ? vr1 Hw H3]; subst. destruct (sub_value op t (a :: l) w E Hw) as (u & us & Hm & ->). apply mapM_Some in Hm.
      destruct (IH acc (a :: l ++ todo) (va ++ (u :: us) ++ vr1) H) as (vs' & R1 & R2).
      + apply mapM_Some. change (a :: l ++ todo) with ((a :: l) ++ todo). apply Forall2_app; [done|]. by apply Forall2_app.
      + exists vs'. split; [done|]. rewrite R2. symmetry. by apply fold1_mid.
    - apply (IH (acc ++ [t]) todo); [done|]. by rewrite <-app_assoc.
  Qed.
  (** the work lists *)
  Lemma reduce_list_linear op fuel l v : length l <= fuel -> apply_op f env op l = Some v -> exists t, reduce_list false op fuel l = Some t /\ val t = Some v.
  Proof.
    revert l. induction fuel as [|fuel IH]; intros l Hl Hv; [destruct l; [done | cbn in Hl; lia]|]. cbn [reduce_list]. unfold apply_op in Hv. destruct (mapM val l) as [vs|] eqn:E; [|done]. cbn [mbind option_bind] in Hv. destruct l as [|a [|b l]]; [cbn in E; injection E as <-; done | |].
    - apply mapM_Some in E. inversion E as [|? x ? k Hx Hk]; subst. inversion Hk; subst. exists a. split; [done|]. rewrite Hx. exact Hv.
    - apply IH; [cbn in *; lia|]. apply mapM_Some in E. inversion E as [|? x ? k Hx Hk]; subst. inversion Hk as [|? y ? k2 Hy Hk2]; subst. unfold apply_op. assert (HM : mapM val (Bin op a b :: l) = Some (f op x y :: k2)) by (apply mapM_Some; constructor; [cbn [value]; by rewrite Hx, Hy | done]). rewrite HM. exact Hv.
  Qed.
  Lemma reduce_list_parallel op fuel l v : associative (f op) -> commutative (f op) -> length l <= fuel -> apply_op f env op l = Some v -> exists t, reduce_list true op fuel l = Some t /\ val t = Some v.
  Proof.
    intros Ha Hc. revert l. induction fuel as [|fuel IH]; intros l Hl Hv; [destruct l; [done | cbn in Hl; lia]|]. cbn [reduce_list]. unfold apply_op in Hv. destruct (mapM val l) as [vs|] eqn:E; [|done]. cbn [mbind option_bind] in Hv. destruct l as [|a [|b l]]; [cbn in E; injection E as <-; done | |].
    - apply mapM_Some in E. inversion E as [|? x ? k Hx Hk]; subst. inversion Hk; subst. exists a. split; [done|]. rewrite Hx. exact Hv.
    - apply IH; [rewrite app_length; cbn in *; lia|]. apply mapM_Some in E. inversion E as [|? x ? k Hx Hk]; subst. inversion Hk as [|? y ? k2 Hy Hk2]; subst. unfold apply_op.
      assert (HM : mapM val (l ++ [Bin op a b]) = Some (k2 ++ [f op x y])) by (apply mapM_Some; apply Forall2_app; [done|]; constructor; [cbn [value]; by rewrite Hx, Hy | constructor]). rewrite HM. cbn [mbind option_bind].
      change (fold1 (f op) (k2 ++ [f op x y]) = Some v). rewrite (fold1_perm (f op) _ (f op x y :: k2) Ha Hc); [exact Hv|]. by rewrite Permutation_app_comm.
  Qed.
  Lemma reduce_list_no_flat parallel op fuel l t : Forall no_flat l -> reduce_list parallel op fuel l = Some t -> no_flat t.
  Proof.
    revert l. induction fuel as [|fuel IH]; intros l Hl H; [done|]. cbn [reduce_list] in H. destruct l as [|a [|b l]]; [done | injection H as <-; by inversion Hl|]. inversion Hl as [|? ? Ha H1]; subst. inversion H1 as [|? ? Hb H2]; subst.
    eapply IH; [|exact H]. destruct parallel; [apply Forall_app; split; [done|]; constructor; [by constructor | constructor] | constructor; [by constructor | done]].
  Qed.
  Lemma reduce_term_value (parallel : bool) t v : (parallel = true -> forall op, associative (f op) /\ commutative (f op)) -> wide t -> val t = Some v -> exists t', reduce_term parallel t = Some t' /\ val t' = Some v /\ no_flat t'.
  Proof.
    intros Hp. revert v. induction t as [x|op a b IHa IHb|op l IH] using term_ind'; intros v Hw Hv; cbn [reduce_term].
    - exists (Leaf x). split; [done|]. split; [done | constructor].
    - inversion Hw; subst. cbn [value] in Hv. destruct (val a) as [x|] eqn:Ea; cbn [mbind option_bind] in Hv; [|done]. destruct (val b) as [y|] eqn:Eb; cbn [mbind option_bind] in Hv; [|done]. injection Hv as <-.
      destruct (IHa x) as (a' & A1 & A2 & A3); [done | done|]. destruct (IHb y) as (b' & B1 & B2 & B3); [done | done|]. rewrite A1, B1. cbn [mbind option_bind]. eexists. split; [done|]. split; [cbn [value]; by rewrite A2, B2 | by constructor].
    - inversion Hw as [| |? ? Hlen Hwl]; subst. cbn [value] in Hv. destruct (mapM val l) as [vs|] eqn:E; cbn [mbind option_bind] in Hv; [|done].
      assert (HM : exists l', Forall2 (fun x y => reduce_term parallel x = Some y) l l' /\ Forall2 (fun x y => val x = Some y) l' vs /\ Forall no_flat l').
      { apply mapM_Some in E. clear -IH E Hwl. revert Hwl IH. induction E as [|x y l k Hx Hl IHl]; intros Hwl IH; [exists []; repeat split; constructor|]. inversion IH as [|? ? I1 I2]; subst. inversion Hwl as [|? ? W1 W2]; subst. destruct (I1 y W1 Hx) as (x' & X1 & X2 & X3). destruct (IHl W2 I2) as (l' & L1 & L2 & L3).
        exists (x' :: l'). by repeat constructor. }
      destruct HM as (l' & L1 & L2 & L3). pose proof (Forall2_length _ _ _ L1) as Hll. apply mapM_Some in L1, L2. rewrite L1. cbn [mbind option_bind]. unfold reduce_flattened. rewrite decide_True by lia.
      assert (Hap : apply_op f env op l' = Some v) by (unfold apply_op; rewrite L2; exact Hv).
      assert (HR : exists t, reduce_list parallel op (length l') l' = Some t /\ val t = Some v). { destruct parallel; [destruct (Hp eq_refl op); by apply reduce_list_parallel | by apply reduce_list_linear]. }
      destruct HR as (t & T1 & T2). exists t. split; [done|]. split; [done|]. by eapply reduce_list_no_flat.
  Qed.
End Flatten.
