(** Properties of scalar evolution (C70-C74). *)
From Coq Require Import ZArith List Bool Lia.
From stdpp Require Import tactics base list list_numbers gmap.
From Verif.ScalarEvolution Require Import Model Spec Proofs Proofs2 Proofs3 Proofs4 Proofs5 Proofs6 Proofs7 Proofs8.
Local Open Scope Z_scope.

(** * C70: folding a sum *)

(** Whatever values the two operands have at a point of the execution, the folded
    term describes their sum, for values of any width of at most 64 bits. *)
Theorem add_folding_sound w pt l r out a b : (w <= 64)%nat -> algebraic l -> algebraic r ->
  denotes w pt l a -> denotes w pt r b ->
  denotes w pt (ApplyAddFolding (Some l) (Some r) out) (a + b).
Proof. intros Hw Al Ar Da Db. unfold ApplyAddFolding. by apply add_fold_sound. Qed.
(** Nothing is lost on terms of one loop: the sum is known iff both operands are,
    and it is again a term of the loop. *)
Theorem add_folding_precise L l r out : term L l -> term L r ->
  term L (ApplyAddFolding (Some l) (Some r) out) /\
  (known (ApplyAddFolding (Some l) (Some r) out) <-> known l /\ known r).
Proof. intros. split; [by apply add_term|by apply (add_term_known L)]. Qed.
Example add_folding_example :
  let l := Chrec 0 1 [Init 1; Const 3; Const 2] in
  let r := Chrec 0 2 [Const 5; Init 7] in
  term 0 l /\ term 0 r /\
  ApplyAddFolding (Some l) (Some r) 9 =
    Chrec 0 9 [NAdd [Init 1; Const 5]; NAdd [Init 7; Const 3]; Const 2].
Proof.
  split; [right; eexists _, _; split; [reflexivity|split; [done|by repeat constructor]]|].
  split; [right; eexists _, _; split; [reflexivity|split; [done|by repeat constructor]]|].
  vm_compute. reflexivity.
Qed.

(** * C71: folding a product *)

(** The folded term describes the product, provided no recurrence among the
    operands has a recurrence as its (last) increment. *)
Theorem mul_folding_sound_partial w pt fuel l r out s a b : (w <= 64)%nat ->
  algebraic l -> algebraic r -> scalar_steps l -> scalar_steps r ->
  mul_fold fuel l r out = Some s -> denotes w pt l a -> denotes w pt r b -> denotes w pt s (a * b).
Proof.
  intros Hw Al Ar Sl Sr H Da Db.
  by apply (proj2 (proj1 (mul_product_sound Hw pt fuel) l r s out (conj Al Sl) (conj Ar Sr) H)).
Qed.
(** On terms of one loop the computation ends, yields a term of the loop, and the
    result is known if both operands are. *)
Theorem mul_folding_total L l r out : term L l -> term L r ->
  exists N, forall fuel, (N <= fuel)%nat -> exists s, mul_fold fuel l r out = Some s /\
    term L s /\ (known l -> known r -> known s).
Proof.
  intros Tl Tr. destruct (mul_term_total L l r out Tl Tr) as [N H]. exists N. intros fuel Hf.
  destruct (H fuel Hf) as [s E]. exists s. split; [done|]. split; [exact (mul_term L _ _ _ _ _ Tl Tr E)|].
  exact (mul_term_known L _ _ _ _ _ Tl Tr E).
Qed.
(** The result does not depend on the fuel. *)
Theorem mul_folding_deterministic n m l r out s t :
  mul_fold n l r out = Some s -> mul_fold m l r out = Some t -> s = t.
Proof.
  intros H1 H2. destruct (Nat.le_gt_cases n m) as [H|H].
  - rewrite (mul_mono n m _ _ _ _ H H1) in H2. by injection H2.
  - rewrite (mul_mono m n _ _ _ _ ltac:(lia) H2) in H1. by injection H1.
Qed.
(** The restriction is needed: the product of {0,+,{0,+,1}<1>}<0> and
    {0,+,1}<0>, that is i0*i1 and i0, is wrong. *)
Theorem mul_folding_nested_refuted : exists l r s pt a b,
  algebraic l /\ algebraic r /\ mul_fold 20 l r 9 = Some s /\
  denotes 64 pt l a /\ denotes 64 pt r b /\ ~ denotes 64 pt s (a * b).
Proof.
  pose (l := Chrec 0 1 [Const 0; Chrec 1 3 [Const 0; Const 1]]).
  pose (r := Chrec 0 2 [Const 0; Const 1]).
  pose (pt := Point (fun l => if decide (l = 0%nat) then 2%nat else 3%nat) (fun _ => 0) (fun _ => 0)).
  exists l, r. eexists. exists pt, (value pt l), (value pt r).
  split; [by vm_compute|]. split; [by vm_compute|]. split; [vm_compute; reflexivity|].
  split; [apply value_denotes|]. split; [apply value_denotes|].
  apply not_denotes; [by vm_compute|]. apply eqw_neq. by vm_compute.
Qed.
Example mul_folding_example :
  let l := Chrec 0 1 [Const 1; Const 1] in
  mul_fold 20 l l 9 = Some (Chrec 0 9 [Const 1; Const 3; Const 2]) /\
  (forall i, crval [1; 3; 2] i = (Z.of_nat i + 1) * (Z.of_nat i + 1)).
Proof.
  split; [by vm_compute|]. induction i as [|i IH]; [done|].
  rewrite crval_S, IH. simpl tail. clear IH. simpl. 
  assert (H : forall j, sum_upto (fun n => 2 + sum_upto (fun _ => 0) n) j = 2 * Z.of_nat j).
  { intros j. rewrite (sum_upto_ext _ (fun _ => 2)); [induction j; simpl; lia|].
    intros k _. rewrite sum_upto_0; [lia|done]. }
  rewrite H. lia.
Qed.

(** * C72: folding an n-ary expression *)

(** The folded expression describes the value the expression had. *)
Theorem fold_nary_add_sound w pt fuel ops out s v : (w <= 64)%nat -> algebraic (NAdd ops) ->
  denotes w pt (NAdd ops) v -> FoldNAryExpression fuel (NAdd ops) out = Some s -> denotes w pt s v.
Proof. intros Hw A D H. apply (fold_nary_add Hw pt fuel ops s out); [|done|done]. by apply all_Forall. Qed.
Theorem fold_nary_mul_sound w pt L fuel ops out s v : (w <= 64)%nat -> Forall (term L) ops ->
  denotes w pt (NMul ops) v -> FoldNAryExpression fuel (NMul ops) out = Some s -> denotes w pt s v.
Proof. intros Hw A D H. by apply (fold_nary_mul Hw pt fuel ops s out v L). Qed.
(** It always ends for sums, and then has at most one operand that is not an
    initial value. *)
Theorem fold_nary_add_total fuel ops out : exists s ops',
  FoldNAryExpression fuel (NAdd ops) out = Some s /\ (s = NAdd ops' \/ ops' = [s]) /\
  (length (filter (fun o => is_init o = false) ops') <= 1)%nat.
Proof.
  destruct (fold_nary_loop_total (fun _ => True) (fun x y => Some (ApplyAddFolding (Some x) (Some y) out))
    ltac:(intros x y _ _; eauto) (length ops) ops) as (ops' & E & _); [by apply Forall_true|done|].
  unfold FoldNAryExpression. rewrite E. simpl. eexists _, ops'. split; [reflexivity|]. split.
  - destruct ops' as [|o [|o' ops']]; [by left|by right|by left].
  - exact (fold_nary_loop_others _ _ _ _ E).
Qed.
Example fold_nary_example :
  FoldNAryExpression 20 (NAdd [Const 1; Init 4; Chrec 0 1 [Const 0; Const 1]; Const 2]) 9 =
    Some (NAdd [Chrec 0 9 [Const 3; Const 1]; Init 4]) /\
  FoldNAryExpression 20 (NMul [Const 2; Chrec 0 1 [Const 1; Init 4]]) 9 =
    Some (Chrec 0 9 [Const 2; NMul [Init 4; Const 2]]).
Proof. by vm_compute. Qed.

(** * C73: the recurrences of the loop variables *)

(** In every execution of the loop, in every iteration, the recurrence found for
    an output describes its value - if every loop variable x is updated to x + e
    with e independent of x. *)
Theorem recurrences_sound_partial w L it ini val order fuel K : (w <= 64)%nat ->
  NoDup (map ev_output order) ->
  Forall (fun e => match ev_start e with
    | Some _ => increment_of (ev_output e) (ev_tree e)
    | None => ~ mentions (ev_output e) (ev_tree e) end) order ->
  Forall (follows w L it ini val) order ->
  analyse fuel L order ∅ = Some K ->
  forall x l o ops i, K !! x = Some (l, o, ops) -> known (Chrec l o ops) ->
    denotes w (point_at L it ini val i) (Chrec l o ops) (val x i) /\
    forall v, denotes w (point_at L it ini val i) (Chrec l o ops) v -> eqw w v (val x i).
Proof.
  intros Hw Hd Hs Hf H x l o ops i Hx Hk.
  assert (R : recorded (wd:=w) L ini val K).
  { apply (analyse_recorded Hw fuel L it ini val order ∅ K); try done.
    apply List.Forall_forall. intros e _. apply lookup_empty. }
  destruct (R x l o ops Hx) as (-> & N & F & V).
  assert (I : iteration (point_at L it ini val i) L = i).
    { simpl. by rewrite decide_True. }
    assert (D : denotes w (point_at L it ini val i) (Chrec L o ops) (val x i)).
    { apply crops_denotes; [done|]. rewrite I. apply V. by apply known_chrec in Hk. }
    split; [done|]. intros v Dv. apply value_unique in Dv; [|done]. apply value_unique in D; [|done].
    rewrite Dv, D. reflexivity.
Qed.
(** The analysis ends and knows the recurrence of every output if each depends
    only on earlier ones, and loop variables on themselves in that way. *)
Theorem recurrences_complete L order : NoDup (map ev_output order) -> in_order [] order ->
  exists N K, (forall fuel, (N <= fuel)%nat -> analyse fuel L order ∅ = Some K) /\
    forall x, In x (map ev_output order) -> exists o ops, K !! x = Some (L, o, ops) /\ known (Chrec L o ops).
Proof.
  intros Hd Ho. destruct (analyse_total L order ∅ []) as (N & K & E & HK & HD).
  - intros y l' o' ops' Hy. by rewrite lookup_empty in Hy.
  - intros p. rewrite lookup_empty. split; [intros []|intros [? ?]; done].
  - by rewrite app_nil_r.
  - done.
  - exists N, K. split; [done|]. intros x Hx. destruct (HD x (or_intror Hx)) as [[[l o] ops] Ex].
    destruct (HK _ _ _ _ Ex) as (-> & _ & _ & Kn). exists o, ops. split; [done|]. by apply known_chrec.
Qed.
(** The test that admits a loop variable accepts all of these... *)
Theorem increments_accepted x t : increment_of x t -> self_dep_ok x t = true.
Proof. apply increment_self_dep. Qed.
Theorem accepted_occurs_once x t : self_dep_ok x t = true -> (occurrences x t <= 1)%nat.
Proof. apply self_dep_once. Qed.
(** ... but also others, for which the recurrence is wrong: x' = 5, x' = y and
    x' = 2 * (x + 1). *)
Definition wrong_recurrence (order : list evolution) : Prop :=
  exists val K l o ops x i,
    Forall (fun e => self_dep_ok (ev_output e) (ev_tree e) = true) order /\
    Forall (follows 64 0 (fun _ => 0%nat) (fun _ => 0) val) order /\
    analyse 20 0 order ∅ = Some K /\ K !! x = Some (l, o, ops) /\ known (Chrec l o ops) /\
    ~ denotes 64 (point_at 0 (fun _ => 0%nat) (fun _ => 0) val i) (Chrec l o ops) (val x i).
Theorem recurrence_of_reset_refuted :
  wrong_recurrence [Evolution 1 (Some (Some 0)) (Const 5)].
Proof.
  pose (val := fun (x i : nat) => match i with O => 0 | S _ => 5 end).
  exists val. eexists. exists 0%nat, 1%nat, [Const 0; Const 5], 1%nat, 2%nat.
  split; [repeat constructor|]. split.
  { constructor; [|constructor]. split; [reflexivity|]. intros i. constructor. reflexivity. }
  split; [vm_compute; reflexivity|]. split; [vm_compute; reflexivity|]. split; [done|].
  apply not_denotes; [done|]. apply eqw_neq. by vm_compute.
Qed.
Theorem recurrence_of_copy_refuted :
  wrong_recurrence [Evolution 2 (Some (Some 0)) (AddE (Placeholder 2) (Const 1));
                    Evolution 1 (Some (Some 0)) (Placeholder 2)].
Proof.
  pose (val := fun (x i : nat) => if decide (x = 2%nat) then Z.of_nat i
                      else match i with O => 0 | S i => Z.of_nat i end).
  exists val. eexists. exists 0%nat, 2%nat, [Const 0; Const 0; Const 1], 1%nat, 3%nat.
  split; [repeat constructor|]. split.
  { constructor; [|constructor; [|constructor]]; (split; [reflexivity|]); intros i.
    - apply (D_add _ _ _ _ (Z.of_nat i) 1); [constructor; reflexivity|constructor; reflexivity|].
      apply eq64_of_eq. unfold val. simpl ev_output. rewrite decide_True by done. lia.
    - constructor. apply eq64_of_eq. reflexivity. }
  split; [vm_compute; reflexivity|]. split; [vm_compute; reflexivity|]. split; [done|].
  apply not_denotes; [done|]. apply eqw_neq. by vm_compute.
Qed.
Theorem recurrence_of_scaled_refuted :
  wrong_recurrence [Evolution 1 (Some (Some 0)) (MulE (Const 2) (AddE (Placeholder 1) (Const 1)))].
Proof.
  pose (val := fun (x i : nat) => 2 * (2 ^ Z.of_nat i - 1)).
  exists val. eexists. exists 0%nat, 1%nat, [Const 0; Const 2], 1%nat, 2%nat.
  split; [repeat constructor|]. split.
  { constructor; [|constructor]. split; [reflexivity|]. intros i.
    apply (D_mul _ _ _ _ 2 (val 1%nat i + 1)); [constructor; reflexivity| |].
    - apply (D_add _ _ _ _ (val 1%nat i) 1); [constructor; reflexivity|constructor; reflexivity|].
      apply eq64_of_eq. reflexivity.
    - apply eq64_of_eq. unfold val. rewrite Nat2Z.inj_succ, Z.pow_succ_r by lia. ring. }
  split; [vm_compute; reflexivity|]. split; [vm_compute; reflexivity|]. split; [done|].
  apply not_denotes; [done|]. apply eqw_neq. by vm_compute.
Qed.
(** A loop that meets the hypotheses: i' = i + 1, s' = s + i * i, with s starting
    with an unknown value. *)
Definition example_loop : list evolution :=
  [Evolution 1 (Some (Some 0)) (AddE (Placeholder 1) (Const 1));
   Evolution 2 (Some None) (AddE (Placeholder 2) (MulE (Placeholder 1) (Placeholder 1)))].
Example recurrences_example : in_order [] example_loop /\
  exists K, analyse 20 0 example_loop ∅ = Some K /\
    K !! 2%nat = Some (0%nat, 2%nat, [Init 2; Const 0; Const 1; Const 2]).
Proof.
  split; [|eexists; split; vm_compute; reflexivity].
  simpl. split; [tauto|]. split; [left; split; [done|tauto]|]. split; [tauto|]. split; [|done].
  left. split; [done|]. intros [?|?]; discriminate.
Qed.

(** * C74: expression trees *)

(** The tree built for an output describes its value, whenever that is defined. *)
Theorem tree_sound_partial w pt e v : (w <= 64)%nat -> no_extension e -> literals w e ->
  eval w e (current pt) = Some v -> denotes w pt (scev_of e) v.
Proof. intros Hw Hn Hl H. by apply scev_of_denotes. Qed.
(** Negation. *)
Theorem negative_sound w pt t v : (w <= 64)%nat -> denotes w pt t v ->
  denotes w pt (GetNegativeSCEV t) (- v).
Proof. intros Hw D. by apply denotes_opp. Qed.
(** With an extension it does not, when the narrower value wraps around: the
    8 bit counter i with i' = i + 10, extended to 32 bits. *)
Theorem tree_of_extension_refuted : exists e v pt, literals 32 e /\
  eval 32 e (current pt) = Some v /\ ~ denotes 32 pt (scev_of e) v.
Proof.
  exists (EExt false 8 (EAdd (EVar 1) (EConst 10))), 4, (Point (fun _ => 0%nat) (fun _ => 0) (fun _ => 250)).
  split; [simpl; lia|]. split; [by vm_compute|].
  apply not_denotes; [by vm_compute|]. apply eqw_neq. by vm_compute.
Qed.
Example tree_example : exists e v, no_extension e /\ literals 32 e /\
  eval 32 e (fun _ => 7) = Some v /\ v = 2 ^ 32 - 9.
Proof.
  exists (ESub (EShl (EVar 1) (EConst 2)) (EAdd (EMul (EVar 1) (EConst 5)) (EConst 2))), (2 ^ 32 - 9).
  split; [by repeat split|]. split; [simpl; lia|]. split; [by vm_compute|done].
Qed.

(** * C75: comparisons of terms *)

(** Two terms are structurally equal iff they are the same and contain no
    placeholder. *)
Theorem structural_equality a b : StructurallyEqual a b = true <-> a = b /\ closed a.
Proof. apply streq_iff. Qed.
(** Terms without trees are unknown iff they have an unknown part. *)
Theorem unknown_terms s : treeless s -> (IsUnknown s = true <-> ~ known s).
Proof.
  intros T. pose proof (isunknown_treeless s T) as H. destruct (IsUnknown s).
  - split; [|done]. intros _ K. apply H in K. done.
  - split; [done|]. intros K. destruct K. by apply H.
Qed.
(** The right operand of a tree is not looked at. *)
Theorem unknown_tree_refuted : exists s, ~ known s /\ IsUnknown s = false.
Proof. exists (AddE (Const 1) Unknown). split; [simpl; tauto|done]. Qed.
Example comparison_example : StructurallyEqual (Placeholder 1) (Placeholder 1) = false /\
  treeless (Chrec 0 1 [Init 1; NAdd [Const 2; Unknown]]) /\ ~ known (Chrec 0 1 [Init 1; NAdd [Const 2; Unknown]]).
Proof. split; [done|]. simpl. tauto. Qed.
