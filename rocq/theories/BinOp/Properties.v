(** Property theorems for binary operation normalizations (C42 - C45). *)
From Coq Require Import ZArith Lia.
From stdpp Require Import base list list_numbers.
From Verif.Bits Require Import Model Spec Proofs Proofs2 Properties.
From Verif.BinOp Require Import Model Spec Proofs Proofs2 Proofs3.

(** ** C42: pairwise reduction of operands *)
(** [red] is right about the values of the pairs it reduces *)
Definition correct_red {A V} (red : A -> A -> option A) (val : A -> option V) (g : V -> V -> V) : Prop := forall a b c x y, red a b = Some c -> val a = Some x -> val b = Some y -> val c = Some (g x y).
(** what an operation computes from the values of its operands, from left to right *)
Definition result {V} (g : V -> V -> V) (vs : list V) : option V := match vs with [] => None | v :: vs => Some (foldl g v vs) end.
Theorem pairwise_reduce_correct : forall {A V} (red : A -> A -> option A) (val : A -> option V) (g : V -> V -> V) args vs,
  correct_red red val g -> associative g -> mapM val args = Some vs -> exists vs', mapM val (pairwise_reduce red args) = Some vs' /\ result g vs' = result g vs.
Proof. intros A V red val g args vs Hr Ha H. exact (pairwise_reduce_value red val g Hr args vs Ha H). Qed.
Print Assumptions pairwise_reduce_correct.
(** the version for commutative operations always ends, and no two operands are left that could be reduced *)
Theorem commutative_pairwise_reduce_correct : forall {A V} (red : A -> A -> option A) (val : A -> option V) (g : V -> V -> V) args vs,
  correct_red red val g -> associative g -> commutative g -> mapM val args = Some vs ->
  exists fuel res vs', commutative_pairwise_reduce red fuel args = Some res /\ mapM val res = Some vs' /\ result g vs' = result g vs /\
    forall i j a b, i < j -> res !! i = Some a -> res !! j = Some b -> red a b = None.
Proof.
  intros A V red val g args vs Hr Ha Hc H. destruct (commutative_loop_total red (length args) args eq_refl _ 0 eq_refl _ 1 eq_refl) as (fuel & res & E).
  destruct (commutative_loop_value red val g Hr fuel 0 1 args res vs Ha Hc Nat.lt_0_1 E H) as (vs' & R1 & R2). exists fuel, res, vs'. split; [done|]. split; [done|]. split; [done|].
  apply (commutative_loop_reduced red fuel 0 1 args res); [lia | lia | lia | done].
Qed.
Print Assumptions commutative_pairwise_reduce_correct.
Theorem commutative_pairwise_reduce_total : forall {A} (red : A -> A -> option A) args, exists fuel res, commutative_pairwise_reduce red fuel args = Some res /\
    forall i j a b, i < j -> res !! i = Some a -> res !! j = Some b -> red a b = None.
Proof.
  intros A red args. destruct (commutative_loop_total red (length args) args eq_refl _ 0 eq_refl _ 1 eq_refl) as (fuel & res & E). exists fuel, res. split; [done|]. apply (commutative_loop_reduced red fuel 0 1 args res); [lia | lia | lia | done].
Qed.
Print Assumptions commutative_pairwise_reduce_total.
(** without commutativity only neighbours are reduced; that pass is not repeated: a pair of neighbours that could be reduced can be left *)
Theorem pairwise_reduce_complete_refuted : exists (red : nat -> nat -> option nat) args a b, pairwise_reduce red args = [a; b] /\ red a b <> None.
Proof. exists (fun a b => if decide ((a, b) = (2, 3)) then Some 5 else if decide ((a, b) = (1, 5)) then Some 6 else None), [1; 2; 3], 1, 5. vm_compute. split; [reflexivity | discriminate]. Qed.
Print Assumptions pairwise_reduce_complete_refuted.
Definition add_consts (a b : nat * bool) : option (nat * bool) := if (snd a && snd b)%bool then Some (fst a + fst b, true) else None.
Example ex_c42 : correct_red add_consts (fun x => Some (fst x)) Nat.add /\ commutative_pairwise_reduce add_consts 50 [(1, true); (2, false); (3, true); (4, true)] = Some [(8, true); (2, false)] /\
  pairwise_reduce add_consts [(1, true); (2, false); (3, true); (4, true)] = [(1, true); (2, false); (7, true)].
Proof.
  split; [|vm_compute; by split]. intros [a ba] [b bb] c x y H [= <-] [= <-]. unfold add_consts in H. cbn in H. destruct (ba && bb)%bool; [|done]. by injection H as <-.
Qed.

(** a node with two operands: no assertion fails, the value is kept, whatever the operation; the node is replaced exactly when the pair can be reduced *)
Definition correct_pair {V} (f : nat -> V -> V -> V) (env : nat -> V) (pair : nat -> term -> term -> option term) : Prop :=
  forall op a b c x y, pair op a b = Some c -> value f env a = Some x -> value f env b = Some y -> value f env c = Some (f op x y).
Theorem normalize_binary_correct : forall {V} (f : nat -> V -> V -> V) (env : nat -> V) comm pair op a b v,
  correct_pair f env pair -> value f env (Bin op a b) = Some v ->
  exists fuel r, normalize_binary comm pair fuel op [a; b] = Some r /\ (forall t, r = Some t -> value f env t = Some v) /\ (r = None <-> pair op a b = None).
Proof.
  intros V f env comm pair op a b v Hp Hv. exists 10. cbn [value] in Hv. destruct (value f env a) as [x|] eqn:Ea; [|done]. cbn [mbind option_bind] in Hv. destruct (value f env b) as [y|] eqn:Eb; [|done]. cbn [mbind option_bind] in Hv. injection Hv as <-.
  unfold normalize_binary, reduce_operands, commutative_pairwise_reduce. destruct (pair op a b) as [c|] eqn:E.
  - exists (Some c). split; [destruct (comm op); cbn; by rewrite E|]. split; [intros t [= <-]; by eapply Hp | done].
  - exists None. assert (He : terms_eqb [a; b] [a; b] = true) by (by apply terms_eqb_iff). split; [destruct (comm op); cbn -[terms_eqb]; rewrite E; cbn -[terms_eqb]; by rewrite He|]. done.
Qed.
Print Assumptions normalize_binary_correct.
(** a flattened node with more operands: when it is replaced the value is kept *)
Theorem normalize_flattened_partial : forall {V} (f : nat -> V -> V -> V) (env : nat -> V) comm pair fuel op operands v t,
  correct_pair f env pair -> associative (f op) -> (comm op = true -> commutative (f op)) -> value f env (Flat op operands) = Some v ->
  normalize_binary comm pair fuel op operands = Some (Some t) -> value f env t = Some v.
Proof.
  intros V f env comm pair fuel op operands v t Hp Ha Hc Hv H. cbn [value] in Hv. destruct (mapM (value f env) operands) as [vs|] eqn:E; [|done]. cbn [mbind option_bind] in Hv. unfold normalize_binary in H. destruct (reduce_operands comm pair fuel op operands) as [new|] eqn:En; [|done]. cbn [mbind option_bind] in H.
  assert (HV : exists vs', mapM (value f env) new = Some vs' /\ fold1 (f op) vs' = Some v).
  { unfold reduce_operands in En. destruct (comm op) eqn:Ec.
    - destruct (commutative_loop_value (pair op) (value f env) (f op) (Hp op) fuel 0 1 operands new vs Ha (Hc eq_refl) Nat.lt_0_1 En E) as (vs' & R1 & R2). exists vs'. split; [done|]. rewrite R2. exact Hv.
    - injection En as <-. destruct (pairwise_reduce_value (pair op) (value f env) (f op) (Hp op) operands vs Ha E) as (vs' & R1 & R2). exists vs'. split; [done|]. rewrite R2. exact Hv. }
  destruct HV as (vs' & V1 & V2). apply mapM_Some in V1. destruct new as [|a [|b [|? ?]]]; [by case_match | | | by case_match].
  - injection H as <-. inversion V1 as [|? x ? ? Hx H1]; subst. inversion H1; subst. rewrite Hx. exact V2.
  - case_match; [done|]. injection H as <-. inversion V1 as [|? x ? ? Hx H1]; subst. inversion H1 as [|? y ? ? Hy H2]; subst. inversion H2; subst. cbn [value]. rewrite Hx, Hy. exact V2.
Qed.
Print Assumptions normalize_flattened_partial.
(** Missing above: that no assertion fails. It does: four operands of a sum, two of them constants, become three, and binary.cpp:131 wants two. *)
Theorem normalize_flattened_crash : exists comm pair op operands, correct_pair (fun _ => Nat.add) (fun x => x) pair /\ comm op = true /\ value (fun _ => Nat.add) (fun x => x) (Flat op operands) = Some 17 /\
  forall fuel, normalize_binary comm pair fuel op operands = None.
Proof.
  exists (fun _ => true), (fun _ a b => match a, b with Leaf 1, Leaf 2 => Some (Leaf 3) | _, _ => None end), 0, [Leaf 1; Leaf 2; Leaf 6; Leaf 8].
  split; [|split; [done|]; split; [done|]].
  - intros op a b c x y H. destruct a as [[|[|?]]| |]; try done. destruct b as [[|[|[|?]]]| |]; try done. injection H as <-. by intros [= <-] [= <-].
  - intros fuel. do 20 (destruct fuel as [|fuel]; [done|]). done.
Qed.
Print Assumptions normalize_flattened_crash.

(** ** C43: flattening associative operations and reducing flattened nodes *)
(** flattening a node with two operands: no assertion fails; the value is kept; no operand of the new node can be flattened; the node is replaced exactly
    when one of its operands is a node of the same operation *)
Theorem flatten_associative_correct : forall {V} (f : nat -> V -> V -> V) (env : nat -> V) assoc op a b v,
  (assoc op = true -> associative (f op)) -> wide a -> wide b -> value f env (Bin op a b) = Some v ->
  exists fuel r, flatten_associative assoc fuel op [a; b] = Some r /\
    (forall t, r = Some t -> value f env t = Some v /\ exists l, t = Flat op l /\ 2 < length l /\ Forall (fun t => forall x y k, t <> Bin op x y /\ t <> Flat op k) l) /\
    (r = None <-> assoc op = false \/ forall t, t = a \/ t = b -> forall x y k, t <> Bin op x y /\ t <> Flat op k).
Proof.
  intros V f env assoc op a b v Ha Wa Wb Hv. destruct (assoc op) eqn:Eas; [|exists 0, None; unfold flatten_associative; rewrite Eas; split; [done|]; split; [done|]; split; [by left | done]].
  assert (Hsub : forall t, sub_operands op t = None <-> forall x y k, t <> Bin op x y /\ t <> Flat op k).
  { intros t. split; [intros H x y k; split; intros ->; cbn in H; rewrite decide_True in H by done; done|]. intros H. destruct t as [x|op' x y|op' k]; cbn; [done | |]; case_decide as Hd; try done; subst op'; [by destruct (H x y []) | by destruct (H a a k)]. }
  assert (Hw : Forall wide [a; b]) by (by repeat constructor). destruct (flatten_total op [a; b] [] Hw) as (fuel & new & E).
  assert (Hm : exists vs, mapM (value f env) [a; b] = Some vs /\ fold1 (f op) vs = Some v).
  { cbn [value] in Hv. cbn. destruct (value f env a) as [x|]; [|done]. cbn [mbind option_bind] in *. destruct (value f env b) as [y|]; [|done]. cbn [mbind option_bind] in *. injection Hv as <-. eauto. }
  destruct Hm as (vs & M1 & M2). destruct (flatten_value f env op fuel [] [a; b] new vs (Ha eq_refl) E M1) as (vs' & F1 & F2).
  pose proof (flatten_flat op fuel [] [a; b] new ltac:(constructor) E) as HF. destruct (flatten_length op fuel [] [a; b] new Hw E) as (L1 & L2 & L3). cbn in L1, L2, L3.
  exists fuel. unfold flatten_associative. rewrite Eas. cbn [negb]. rewrite E. cbn [mbind option_bind]. destruct (terms_eqb [a; b] new) eqn:Eq.
  - apply terms_eqb_iff in Eq as <-. exists None. split; [done|]. split; [done|]. split; [|done]. intros _. right. rewrite Forall_forall in HF. intros t Ht. apply Hsub. apply HF. destruct Ht as [-> | ->]; [left | right; left].
  - assert (Hex : Exists (fun t => sub_operands op t <> None) [a; b]).
    { destruct (sub_operands op a) eqn:E1; [left; by rewrite E1|]. destruct (sub_operands op b) eqn:E2; [right; left; by rewrite E2|]. rewrite L3 in Eq by (by repeat constructor). by rewrite (proj2 (terms_eqb_iff [a; b] [a; b]) eq_refl) in Eq. }
    specialize (L2 Hex). rewrite decide_True by lia. exists (Some (Flat op new)). split; [done|]. split.
    + intros t [= <-]. split; [cbn [value]; rewrite F1; cbn [mbind option_bind]; rewrite <-M2; exact F2|]. exists new. split; [done|]. split; [lia|]. eapply Forall_impl; [exact HF|]. intros t Ht. by apply Hsub.
    + split; [done|]. intros [?|Hno]; [done|]. exfalso. apply Exists_exists in Hex as (t & Ht & Hx). apply Hx. apply Hsub. apply Hno. apply elem_of_cons in Ht as [-> |Ht]; [by left|]. apply elem_of_list_singleton in Ht as ->. by right.
Qed.
Print Assumptions flatten_associative_correct.
(** replacing every flattened node by nodes with two operands, one after the other: always works, no flattened node is left, the value is kept *)
Theorem reduce_linear_correct : forall {V} (f : nat -> V -> V -> V) (env : nat -> V) t v, wide t -> value f env t = Some v ->
  exists t', reduce_term false t = Some t' /\ value f env t' = Some v /\ no_flat t'.
Proof. intros V f env t v Hw Hv. apply reduce_term_value; done. Qed.
Print Assumptions reduce_linear_correct.
(** as a tree: for operations that are associative and commutative *)
Theorem reduce_parallel_partial : forall {V} (f : nat -> V -> V -> V) (env : nat -> V) t v, (forall op, associative (f op) /\ commutative (f op)) -> wide t -> value f env t = Some v ->
  exists t', reduce_term true t = Some t' /\ value f env t' = Some v /\ no_flat t'.
Proof. intros V f env t v Hf Hw Hv. apply reduce_term_value; done. Qed.
Print Assumptions reduce_parallel_partial.
(** Missing above: operations that are associative only, which is what flattening asks for. The tree changes the order of the operands then. *)
Theorem reduce_parallel_refuted : exists (f : nat -> list nat -> list nat -> list nat) (env : nat -> list nat) t t' v v', associative (f 0) /\ wide t /\ value f env t = Some v /\ reduce_term true t = Some t' /\ value f env t' = Some v' /\ v <> v'.
Proof.
  exists (fun _ => app), (fun x => [x]), (Flat 0 [Leaf 1; Leaf 2; Leaf 3]), (Bin 0 (Leaf 3) (Bin 0 (Leaf 1) (Leaf 2))), [1; 2; 3], [3; 1; 2].
  split; [intros x y z; apply app_assoc|]. split; [constructor; [cbn; lia | repeat constructor]|]. by repeat split.
Qed.
Print Assumptions reduce_parallel_refuted.
Example ex_c43 : let t := Bin 0 (Bin 0 (Leaf 1) (Leaf 2)) (Flat 0 [Leaf 3; Bin 1 (Leaf 4) (Leaf 5); Leaf 6]) in
  wide t /\ flatten_associative (fun _ => true) 20 0 [Bin 0 (Leaf 1) (Leaf 2); Flat 0 [Leaf 3; Bin 1 (Leaf 4) (Leaf 5); Leaf 6]] = Some (Some (Flat 0 [Leaf 1; Leaf 2; Leaf 3; Bin 1 (Leaf 4) (Leaf 5); Leaf 6])) /\
  reduce_term false t = Some (Bin 0 (Bin 0 (Leaf 1) (Leaf 2)) (Bin 0 (Bin 0 (Leaf 3) (Bin 1 (Leaf 4) (Leaf 5))) (Leaf 6))) /\
  value (fun op => if decide (op = 0) then Nat.add else Nat.mul) (fun x => x) t = Some 32.
Proof. cbn zeta. split; [repeat constructor; cbn; lia | vm_compute; by repeat split]. Qed.

(** ** C44: slices and concatenations of bit strings *)
Definition correct_same (same : bterm -> bterm -> bool) : Prop := forall s t, same s t = true -> s = t.
Theorem slice_normalizations_correct : forall (env : nat -> bits) low high t v, bvalue env (BSlice low high t) = Some v ->
  (forall t', slice_idempotent low high t = Some t' -> bvalue env t' = Some v) /\
  (exists r, slice_constant low high t = Some r /\ forall t', r = Some t' -> bvalue env t' = Some v) /\
  (forall t', slice_narrow low high t = Some t' -> bvalue env t' = Some v) /\
  (forall t', slice_distribute low high t = Some t' -> bvalue env t' = Some v).
Proof.
  intros env low high t v Hv. split; [|split; [|split]].
  - intros t' H. unfold slice_idempotent in H. case_decide as Hd; [|done]. destruct Hd as [-> ->]. injection H as <-. cbn [bvalue] in Hv. destruct (bvalue env t) as [u|] eqn:E; [|done]. cbn [mbind option_bind] in Hv. destruct (bvalue_width env t u E) as [W1 W2].
    apply slice_inv in Hv as [H1 ->]. rewrite drop_0, Nat.sub_0_r. rewrite take_ge by lia. done.
  - destruct t as [x w|c|lo hi t|l]; cbn [slice_constant]; try (exists None; done). cbn [bvalue] in Hv. case_decide; [|done]. cbn [mbind option_bind] in Hv. rewrite Hv. cbn [mbind option_bind]. eexists. split; [done|]. intros t' [= <-]. cbn [bvalue].
    apply slice_inv in Hv as [H1 ->]. rewrite decide_True; [done|]. rewrite take_length, drop_length. lia.
  - intros t' H. by eapply narrow_value.
  - intros t' H. by eapply distribute_slice_value.
Qed.
Print Assumptions slice_normalizations_correct.
(** every slice of a constant, of a slice, of a concatenation, and of all bits, is normalized *)
Theorem slice_normalizations_complete : forall (env : nat -> bits) low high t v, bvalue env (BSlice low high t) = Some v ->
  (forall c, t = BConst c -> slice_constant low high t = Some (Some (BConst v))) /\ (forall lo hi s, t = BSlice lo hi s -> slice_narrow low high t <> None) /\
  (forall l, t = BConcat l -> exists l', slice_distribute low high t = Some (BConcat l') /\ length l' <= length l).
Proof.
  intros env low high t v Hv. split; [|split].
  - intros c ->. cbn [slice_constant]. cbn [bvalue] in Hv. case_decide; [|done]. cbn [mbind option_bind] in Hv. by rewrite Hv.
  - by intros lo hi s ->.
  - intros l ->. eexists. split; [done|]. generalize 0. clear. induction l as [|t l IH]; intros pos; [done|]. cbn [distribute_loop]. rewrite app_length. specialize (IH (pos + width t)). cbn. case_decide; cbn; lia.
Qed.
Print Assumptions slice_normalizations_complete.
(** concatenations: merging neighbours *)
Theorem concat_reduce_correct : forall (env : nat -> bits) same operands v, correct_same same -> bvalue env (BConcat operands) = Some v ->
  bvalue env (BConcat (pairwise_reduce (concat_pair same) operands)) = Some v.
Proof.
  intros env same operands v Hs Hv. apply concat_value_inv in Hv as (vs & E & -> & Hne).
  destruct (pairwise_reduce_value (concat_pair same) (bvalue env) concat_bits (fun a b c x y => concat_pair_value env same a b c x y Hs) operands vs) as (vs' & R1 & R2); [|done|].
  - intros x y z. apply app_assoc.
  - rewrite !fold1_concat in R2. apply mapM_Some in E. destruct vs as [|u vs]; [inversion E; by subst|]. destruct vs' as [|u' vs']; [done|]. injection R2 as R2. rewrite (concat_value env _ (u' :: vs')); [by f_equal | done|]. intros Hn. rewrite Hn in R1. done.
Qed.
Print Assumptions concat_reduce_correct.
Theorem concat_normalize_correct : forall (env : nat -> bits) same operands v t, correct_same same -> bvalue env (BConcat operands) = Some v ->
  concat_normalize same operands = Some (Some t) -> bvalue env t = Some v.
Proof.
  intros env same operands v t Hs Hv H. pose proof (concat_reduce_correct env same operands v Hs Hv) as HR. unfold concat_normalize in H. set (new := pairwise_reduce (concat_pair same) operands) in *. destruct new as [|x [|y k]] eqn:En.
  - case_match; [done|]. case_decide as Hd; [destruct Hd as [Hd _]; cbn in Hd; lia | done].
  - injection H as <-. apply concat_value_inv in HR as (vs & E & -> & _). apply mapM_Some in E. inversion E as [|? u ? ? Hu H1]; subst. inversion H1; subst. rewrite Hu. cbn. unfold concat_bits. by rewrite app_nil_r.
  - case_match; [done|]. case_decide; [|done]. injection H as <-. exact HR.
Qed.
Print Assumptions concat_normalize_correct.
(** with two operands no assertion fails and nothing is thrown *)
Theorem concat_normalize_two : forall same a b, exists r, concat_normalize same [a; b] = Some r /\ (r = None <-> concat_pair same a b = None).
Proof.
  intros same a b. unfold concat_normalize. cbn [pairwise_reduce pairwise_loop]. destruct (concat_pair same a b) as [c|]; [exists (Some c); done|]. cbn [app]. rewrite (proj2 (bterms_eqb_iff [a; b] [a; b]) eq_refl). exists None. done.
Qed.
Print Assumptions concat_normalize_two.
(** with three operands, two of which can be merged, the normalization fails: the operation that is copied has three arguments *)
Theorem concat_normalize_crash : forall same x w c d, concat_normalize same [BVar x w; BConst c; BConst d] = None.
Proof. intros same x w c d. unfold concat_normalize. cbn [pairwise_reduce pairwise_loop concat_pair app]. destruct (bterms_eqb _ _) eqn:E; [|done]. apply bterms_eqb_iff in E. done. Qed.
Print Assumptions concat_normalize_crash.
(** flattening a concatenation of two operands: no assertion fails; the value is kept; no operand of the new node is a concatenation *)
Inductive concats_wide : bterm -> Prop :=
  | cw_var x w : concats_wide (BVar x w) | cw_const v : concats_wide (BConst v) | cw_slice lo hi t : concats_wide t -> concats_wide (BSlice lo hi t)
  | cw_concat l : 2 <= length l -> Forall concats_wide l -> concats_wide (BConcat l).
Lemma concat_flatten_length fuel acc todo res : Forall concats_wide todo -> flatten_loop concat_operands fuel acc todo = Some res ->
  length acc + length todo <= length res /\ (Exists (fun t => concat_operands t <> None) todo -> length acc + length todo < length res) /\ (Forall (fun t => concat_operands t = None) todo -> res = acc ++ todo).
Proof.
  revert acc todo. induction fuel as [|fuel IH]; intros acc todo Hw H; [done|]. cbn [flatten_loop] in H. destruct todo as [|t todo]; [injection H as <-; split; [cbn; lia|]; split; [intros He; by apply Exists_nil in He | by rewrite app_nil_r]|]. inversion Hw as [|? ? Ht Htodo]; subst.
  destruct (concat_operands t) as [[|a l]|] eqn:E; [done | |].
  - assert (Hl : Forall concats_wide (a :: l) /\ 2 <= length (a :: l)) by (destruct t; try done; injection E as ->; inversion Ht; done). destruct Hl as [Hl1 Hl2].
    destruct (IH acc (a :: l ++ todo)) as (R1 & R2 & R3); [change (a :: l ++ todo) with ((a :: l) ++ todo); by apply Forall_app | done|]. cbn in R1, Hl2. rewrite app_length in R1. split; [cbn; lia|]. split; [intros _; cbn; lia|]. intros Hf. inversion Hf; subst. congruence.
  - destruct (IH (acc ++ [t]) todo Htodo H) as (R1 & R2 & R3). rewrite app_length in R1, R2. cbn in R1, R2. split; [cbn; lia|]. split; [|intros Hf; inversion Hf; subst; rewrite R3 by done; by rewrite <-app_assoc].
    intros He. inversion He as [? ? Hx|? ? Hx]; subst; [congruence|]. specialize (R2 Hx). cbn. lia.
Qed.
Theorem concat_flatten_correct : forall (env : nat -> bits) a b v, concats_wide a -> concats_wide b -> bvalue env (BConcat [a; b]) = Some v ->
  exists fuel r, concat_flatten fuel [a; b] = Some r /\
    (forall t, r = Some t -> bvalue env t = Some v /\ exists l, t = BConcat l /\ 2 < length l /\ Forall (fun t => forall k, t <> BConcat k) l) /\
    (r = None <-> (forall k, a <> BConcat k) /\ (forall k, b <> BConcat k)).
Proof.
  intros env a b v Wa Wb Hv. apply concat_value_inv in Hv as (vs & E & -> & _). destruct (concat_flatten_total env [a; b] [] vs E) as (fuel & res & us & R1 & R2 & R3 & R4). cbn [app] in R1.
  destruct (concat_flatten_length fuel [] [a; b] res ltac:(by repeat constructor) R1) as (L1 & L2 & L3). cbn in L1, L2, L3. exists fuel. unfold concat_flatten. rewrite R1. cbn [mbind option_bind].
  assert (Hc : forall t, concat_operands t = None <-> forall k, t <> BConcat k) by (intros [| | |l]; cbn; split; try done; intros H; by destruct (H l)).
  destruct (bterms_eqb [a; b] res) eqn:Eq.
  - apply bterms_eqb_iff in Eq as <-. exists None. split; [done|]. split; [done|]. split; [|done]. intros _. inversion R4 as [|? ? H1 H2]; subst. inversion H2; subst. split; by apply Hc.
  - assert (Hex : Exists (fun t => concat_operands t <> None) [a; b]).
    { destruct (concat_operands a) eqn:E1; [left; by rewrite E1|]. destruct (concat_operands b) eqn:E2; [right; left; by rewrite E2|]. rewrite L3 in Eq by (by repeat constructor). by rewrite (proj2 (bterms_eqb_iff [a; b] [a; b]) eq_refl) in Eq. }
    specialize (L2 Hex). rewrite decide_True by lia. exists (Some (BConcat res)). split; [done|]. split.
    + intros t [= <-]. split; [rewrite (concat_value env res us R2); [by rewrite R3 | intros ->; cbn in L2; lia]|]. exists res. split; [done|]. split; [lia|]. eapply Forall_impl; [exact R4|]. intros t. apply Hc.
    + split; [done|]. intros [N1 N2]. exfalso. apply Exists_exists in Hex as (t & Ht & Hx). apply Hx. apply Hc. apply elem_of_cons in Ht as [-> |Ht]; [done|]. by apply elem_of_list_singleton in Ht as ->.
Qed.
Print Assumptions concat_flatten_correct.
(** a concatenation of three operands that has nothing to flatten fails an assertion *)
Theorem concat_flatten_crash : forall x y z w fuel, concat_flatten fuel [BVar x w; BVar y w; BVar z w] = None.
Proof. intros x y z w fuel. unfold concat_flatten. do 4 (destruct fuel as [|fuel]; [done|]). cbn [flatten_loop concat_operands app mbind option_bind]. rewrite (proj2 (bterms_eqb_iff _ _) eq_refl). done. Qed.
Print Assumptions concat_flatten_crash.
Example ex_c44 : let env := fun _ : nat => [B1; B0; BD; B1] in let x := BVar 0 4 in
  slice_distribute 2 6 (BConcat [x; BConst [B0; B0; B1]]) = Some (BConcat [BSlice 2 4 x; BSlice 0 2 (BConst [B0; B0; B1])]) /\
  bvalue env (BSlice 2 6 (BConcat [x; BConst [B0; B0; B1]])) = Some [BD; B1; B0; B0] /\
  slice_narrow 1 2 (BSlice 1 4 x) = Some (BSlice 2 3 x) /\ bvalue env (BSlice 2 3 x) = Some [BD] /\
  concat_normalize bterm_eqb [BSlice 0 2 x; BSlice 2 4 x] = Some (Some (BSlice 0 4 x)) /\ slice_idempotent 0 4 x = Some x /\
  concat_flatten 10 [x; BConcat [x; BSlice 0 1 x]] = Some (Some (BConcat [x; x; BSlice 0 1 x])).
Proof. vm_compute. by repeat split. Qed.

(** ** C45: folding integer operations *)
Local Open Scope Z_scope.
Lemma uval_of_sval r : r <> [] -> uval r = sval r mod modulus r.
Proof.
  intros _. pose proof (uval_range r) as Hr. unfold sval. destruct (2 * uval r <? modulus r); [by rewrite Z.mod_small by lia|]. apply Z.mod_unique with (q := -1); lia.
Qed.
Theorem fold_binary_correct : forall op (a b : list bool) w z, a <> [] -> length a = length b -> Z.of_nat (length a) < 2 ^ 64 -> llvm_result op a b = Some (w, z) ->
  exists r, fold_binary op (known a) (known b) = Some (known r) /\ length r = w /\ uval r = z mod 2 ^ Z.of_nat w.
Proof.
  intros op a b w z Ha Hl Hw H. destruct (arithmetic_exact a b Ha Hl) as (Hadd & Hsub & Hmul & _ & _ & Hand & Hor & Hxor). destruct (comparisons_exact a b Ha Hl) as (C1 & C2 & C3 & C4 & C5 & C6 & C7 & C8 & C9 & C10).
  assert (Hcmp : forall (o : option bit) (c : bool), o = Some (known1 c) -> Some (1%nat, if c then 1 else 0) = Some (w, z) -> exists r, one_bit o = Some (known r) /\ length r = w /\ uval r = z mod 2 ^ Z.of_nat w).
  { intros o c -> [= <- <-]. exists [c]. split; [done|]. split; [done|]. by destruct c. }
  assert (Har : forall o v, (exists r, o = Some (known r) /\ length r = length a /\ uval r = v mod modulus a) -> Some (length a, v) = Some (w, z) -> exists r, o = Some (known r) /\ length r = w /\ uval r = z mod 2 ^ Z.of_nat w).
  { intros o v (r & R1 & R2 & R3) [= <- <-]. exists r. done. }
  assert (Hs : forall s, uval b < Z.of_nat (length a) -> s = uval b -> to_uint (known b) = Some s /\ Z.of_nat (Z.to_nat s) = uval b).
  { intros s Hb ->. pose proof (uval_range b). rewrite to_uint_ok. destruct (Z.ltb_spec (uval b) (2 ^ 64)); [|lia]. split; [done|]. rewrite Z2Nat.id; [done|lia]. }
  assert (Hsz : sval b = 0 <-> uval b = 0).
  { pose proof (uval_range b) as Hr. unfold sval. destruct (Z.ltb_spec (2 * uval b) (modulus b)); [done|]. split; intros; lia. }
  destruct op; cbn [llvm_result] in H; cbn [fold_binary]; eauto.
  - destruct (Z.eqb_spec (sval b) 0) as [|Hz]; [done|]. rewrite Hsz in Hz. destruct (division_exact a b Ha Hl Hz) as (D1 & D2 & D3 & D4). eauto.
  - destruct (Z.eqb_spec (uval b) 0) as [|Hz]; [done|]. destruct (division_exact a b Ha Hl Hz) as (D1 & D2 & D3 & D4). eauto.
  - destruct (Z.eqb_spec (sval b) 0) as [|Hz]; [done|]. rewrite Hsz in Hz. destruct (division_exact a b Ha Hl Hz) as (D1 & D2 & D3 & D4). eauto.
  - destruct (Z.eqb_spec (uval b) 0) as [|Hz]; [done|]. destruct (division_exact a b Ha Hl Hz) as (D1 & D2 & D3 & D4). eauto.
  - destruct (Z.ltb_spec (uval b) (Z.of_nat (length a))) as [Hb|]; [|done]. destruct (Hs _ Hb eq_refl) as [-> Es]. cbn [mbind option_bind]. destruct (unary_and_shifts_exact a (Z.to_nat (uval b)) Ha) as (_ & _ & _ & _ & r & R1 & R2 & R3). rewrite Es in R3. eapply Har; [|exact H]. exists r. split; [done|]. split; [done|].
    rewrite uval_of_sval by (intros ->; destruct a; [done | done]). rewrite R3. unfold modulus. by rewrite R2.
  - destruct (Z.ltb_spec (uval b) (Z.of_nat (length a))) as [Hb|]; [|done]. destruct (Hs _ Hb eq_refl) as [-> Es]. cbn [mbind option_bind]. destruct (unary_and_shifts_exact a (Z.to_nat (uval b)) Ha) as (_ & _ & Hsh & _). rewrite Es in Hsh. eauto.
  - destruct (Z.ltb_spec (uval b) (Z.of_nat (length a))) as [Hb|]; [|done]. destruct (Hs _ Hb eq_refl) as [-> Es]. cbn [mbind option_bind]. destruct (unary_and_shifts_exact a (Z.to_nat (uval b)) Ha) as (_ & _ & _ & (r & R1 & R2 & R3) & _). rewrite Es in R3. eapply Har; [|exact H]. exists r. split; [done|]. split; [done|].
    pose proof (uval_range r) as Hr. rewrite <-R3. rewrite Z.mod_small; [done|]. unfold modulus in *. by rewrite <-R2.
Qed.
Print Assumptions fold_binary_correct.
(** the operations that are declared associative or commutative are *)
Theorem declared_flags_correct : forall op (a b c : list bool), a <> [] -> length a = length b -> length b = length c ->
  (is_commutative op = true -> fold_binary op (known a) (known b) = fold_binary op (known b) (known a) /\ fold_binary op (known a) (known b) <> None) /\
  (is_associative op = true -> exists ab bc r, fold_binary op (known a) (known b) = Some ab /\ fold_binary op (known b) (known c) = Some bc /\
     fold_binary op ab (known c) = Some r /\ fold_binary op (known a) bc = Some r).
Proof.
  intros op a b c Ha Hab Hbc. assert (Hb : b <> []) by (intros ->; by destruct a). assert (Hm : modulus b = modulus a) by (unfold modulus; by rewrite Hab). assert (Hmp : 0 < modulus a) by (unfold modulus; lia).
  pose proof (arithmetic_exact a b Ha Hab) as AB. pose proof (arithmetic_exact b a Hb (eq_sym Hab)) as BA. pose proof (arithmetic_exact b c Hb Hbc) as BC. cbn zeta in AB, BA, BC. rewrite Hm in BA, BC.
  assert (Hcomm : forall o1 o2 v w, (exists r, o1 = Some (known r) /\ length r = length a /\ uval r = v mod modulus a) -> (exists r, o2 = Some (known r) /\ length r = length b /\ uval r = w mod modulus a) -> v = w -> o1 = o2 /\ o1 <> None).
  { intros o1 o2 v w (r & -> & R2 & R3) (s & -> & S2 & S3) ->. split; [|done]. do 2 f_equal. apply uval_inj; lia. }
  assert (Hassoc : forall (o : bits -> bits -> option bits) (g : Z -> Z -> Z), (forall x y, x <> [] -> length x = length y -> exists r, o (known x) (known y) = Some (known r) /\ length r = length x /\ uval r = g (uval x) (uval y) mod modulus x) ->
    (forall x y z M, 0 < M -> g (g x y mod M) z mod M = g x (g y z mod M) mod M) -> exists ab bc r, o (known a) (known b) = Some ab /\ o (known b) (known c) = Some bc /\ o ab (known c) = Some r /\ o (known a) bc = Some r).
  { intros o g Ho Hg. destruct (Ho a b Ha Hab) as (ab & E1 & L1 & V1). destruct (Ho b c Hb Hbc) as (bc & E2 & L2 & V2). assert (Hne : ab <> []) by (intros ->; by destruct a).
    destruct (Ho ab c Hne) as (r & E3 & L3 & V3); [lia|]. destruct (Ho a bc Ha) as (s & E4 & L4 & V4); [lia|]. exists (known ab), (known bc), (known r). split; [done|]. split; [done|]. split; [done|]. rewrite E4. do 2 f_equal. apply uval_inj; [lia|].
    rewrite V3, V4, V1, V2. assert (Hm' : modulus ab = modulus a) by (unfold modulus; by rewrite L1). rewrite Hm', Hm. symmetry. by apply Hg. }
  assert (Hbw : forall (g : Z -> Z -> Z), (forall x y z, g x (g y z) = g (g x y) z) -> (forall k x y, 0 <= k -> g x y mod 2 ^ k = g (x mod 2 ^ k) (y mod 2 ^ k)) -> forall k x y z, 0 <= k -> g (g x y mod 2 ^ k) z mod 2 ^ k = g x (g y z mod 2 ^ k) mod 2 ^ k).
  { intros g Hg Hk k x y z Hk0. rewrite (Hk k (g x y mod 2 ^ k)), (Hk k x (g y z mod 2 ^ k)) by done. rewrite !Z.mod_mod by lia. rewrite <-!Hk by done. by rewrite Hg. }
  assert (Hassoc2 : forall (o : bits -> bits -> option bits) (g : Z -> Z -> Z), (forall x y, x <> [] -> length x = length y -> exists r, o (known x) (known y) = Some (known r) /\ length r = length x /\ uval r = g (uval x) (uval y) mod modulus x) ->
    (forall x y z, g x (g y z) = g (g x y) z) -> (forall k x y, 0 <= k -> g x y mod 2 ^ k = g (x mod 2 ^ k) (y mod 2 ^ k)) -> exists ab bc r, o (known a) (known b) = Some ab /\ o (known b) (known c) = Some bc /\ o ab (known c) = Some r /\ o (known a) bc = Some r).
  { intros o g Ho Hg Hk. destruct (Ho a b Ha Hab) as (ab & E1 & L1 & V1). destruct (Ho b c Hb Hbc) as (bc & E2 & L2 & V2). assert (Hne : ab <> []) by (intros ->; by destruct a).
    destruct (Ho ab c Hne) as (r & E3 & L3 & V3); [lia|]. destruct (Ho a bc Ha) as (s & E4 & L4 & V4); [lia|]. exists (known ab), (known bc), (known r). split; [done|]. split; [done|]. split; [done|]. rewrite E4. do 2 f_equal. apply uval_inj; [lia|].
    rewrite V3, V4, V1, V2. assert (Hm' : modulus ab = modulus a) by (unfold modulus; by rewrite L1). rewrite Hm', Hm. symmetry. unfold modulus. apply Hbw; [done | done | lia]. }
  split.
  - intros H. destruct op; try done; cbn [fold_binary].
    + destruct (comparisons_exact a b Ha Hab) as (C1 & _). destruct (comparisons_exact b a Hb (eq_sym Hab)) as (C1' & _). rewrite C1, C1'. rewrite Z.eqb_sym. done.
    + destruct (comparisons_exact a b Ha Hab) as (_ & C1 & _). destruct (comparisons_exact b a Hb (eq_sym Hab)) as (_ & C1' & _). rewrite C1, C1'. rewrite Z.eqb_sym. done.
    + eapply Hcomm; [apply AB | apply BA | lia].
    + eapply Hcomm; [apply AB | apply BA | lia].
    + eapply Hcomm; [apply AB | apply BA | apply Z.lor_comm].
    + eapply Hcomm; [apply AB | apply BA | apply Z.land_comm].
    + eapply Hcomm; [apply AB | apply BA | apply Z.lxor_comm].
  - assert (Hmodbits : forall (g : Z -> Z -> Z) (h : bool -> bool -> bool), h false false = false -> (forall x y n, Z.testbit (g x y) n = h (Z.testbit x n) (Z.testbit y n)) -> forall k x y, 0 <= k -> g x y mod 2 ^ k = g (x mod 2 ^ k) (y mod 2 ^ k)).
    { intros g h Hh Hg k x y Hk. apply Z.bits_inj'. intros n Hn. rewrite Hg. destruct (Z.lt_ge_cases n k).
      - rewrite !Z.mod_pow2_bits_low by lia. apply Hg.
      - rewrite !Z.mod_pow2_bits_high by lia. by rewrite Hh. }
    intros H. destruct op; try done; cbn [fold_binary].
    + apply (Hassoc add Z.add); [intros x y Hx Hl; apply (arithmetic_exact x y Hx Hl)|]. intros x y z M HM. rewrite Z.add_mod_idemp_l, Z.add_mod_idemp_r by lia. f_equal. lia.
    + apply (Hassoc mul Z.mul); [intros x y Hx Hl; apply (arithmetic_exact x y Hx Hl)|]. intros x y z M HM. rewrite Z.mul_mod_idemp_l, Z.mul_mod_idemp_r by lia. f_equal. lia.
    + apply (Hassoc2 lor_v Z.lor); [intros x y Hx Hl; apply (arithmetic_exact x y Hx Hl) | intros; apply Z.lor_assoc |]. apply (Hmodbits Z.lor orb); [done | intros; apply Z.lor_spec].
    + apply (Hassoc2 land_v Z.land); [intros x y Hx Hl; apply (arithmetic_exact x y Hx Hl) | intros; apply Z.land_assoc |]. apply (Hmodbits Z.land andb); [done | intros; apply Z.land_spec].
    + apply (Hassoc2 lxor_v Z.lxor); [intros x y Hx Hl; apply (arithmetic_exact x y Hx Hl) | intros; symmetry; apply Z.lxor_assoc |]. apply (Hmodbits Z.lxor xorb); [done | intros; apply Z.lxor_spec].
Qed.
Print Assumptions declared_flags_correct.
(** a shift by a constant that does not fit into 64 bits throws *)
Theorem fold_shift_crash : forall op (a b : list bool), op = IShl \/ op = ILShr \/ op = IAShr -> 2 ^ 64 <= uval b -> fold_binary op (known a) (known b) = None.
Proof. intros op a b Hop Hb. assert (E : to_uint (known b) = None) by (rewrite to_uint_ok; destruct (Z.ltb_spec (uval b) (2 ^ 64)); [lia | done]). destruct Hop as [-> |[-> | ->]]; cbn [fold_binary]; by rewrite E. Qed.
Print Assumptions fold_shift_crash.
Example ex_c45 : llvm_result IAShr [true; false; false; true] [true; false; false; false] = Some (4%nat, -4) /\
  fold_binary IAShr (known [true; false; false; true]) (known [true; false; false; false]) = Some (known [false; false; true; true]) /\
  fold_binary ISlt (known [true; false; false; true]) (known [true; false; false; false]) = Some (known [true]).
Proof. vm_compute. by repeat split. Qed.
