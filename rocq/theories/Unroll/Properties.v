(** Property theorems for loop unrolling (C23, C26). *)
From Coq Require Import ZArith List Bool Lia.
From Verif.Bits Require Import Model Spec Proofs Proofs2.
From Verif.Unroll Require Import Model Spec Proofs.
Import ListNotations.
Local Open Scope Z_scope.

(** C23, full statement: for every loop, if niterations() returns a value then
    it is the trip count.  That is false of the code (see the refutations); it
    holds for loops that count up by addition, in any operand order, for the
    ne/lt/le comparisons. *)
Theorem niterations_correct_partial :
  forall l r, well_typed l -> counts_up l -> niterations l = Some r ->
  exists rb, r = known rb /\ trip_count l (uval rb).
Proof.
  intros l r WT CU H.
  destruct (niterations_additive l r WT (proj1 CU) (proj1 (proj2 CU)) H) as (rb & -> & Lr & HR2 & HR).
  exists rb. split; [reflexivity|]. apply trip_ok; try assumption. now rewrite <- HR.
Qed.
Print Assumptions niterations_correct_partial.

(** The unrolled loop computes the same final values as the original, for any
    other loop variables S and any remaining loop body g. *)
Theorem unroll_known_preserves_semantics :
  forall l factor p S (g : Z -> S -> S) (s : S) st',
  well_typed l -> counts_up l -> 2 <= factor < 2 ^ 63 ->
  unroll_known l factor = Some p ->
  (transformed l S g factor p (uval (init l), s) st' <-> original l S g (uval (init l), s) st') /\
  (exists fin, original l S g (uval (init l), s) fin).
Proof.
  intros l factor p S g s st' WT CU HF H. split; [now apply unroll_known_ok|].
  unfold unroll_known in H. destruct (niterations l) as [r|] eqn:EN; [|discriminate].
  destruct (niterations_additive l r WT (proj1 CU) (proj1 (proj2 CU)) EN) as (rb & -> & Lr & HR2 & HR).
  assert (2 * (uval rb * uval (step l)) < m l) as H2 by (rewrite <- HR; exact HR2).
  pose proof (k_pos l _ WT CU HR) as Hk.
  exists (Nat.iter (Z.to_nat (uval rb)) (body l S g) (uval (init l), s)).
  apply (original_from l S g (uval rb) WT CU HR H2 0 s); [lia|reflexivity].
Qed.
Print Assumptions unroll_known_preserves_semantics.

(** The version for run-time boundaries. *)
Theorem unroll_unknown_preserves_semantics_partial :
  forall l factor S (g : Z -> S -> S) (s : S) st',
  well_typed l -> 2 <= factor < 2 ^ 63 -> counts_up_with_room l factor ->
  (transformed_unknown l S g factor (uval (init l), s) st' <-> original l S g (uval (init l), s) st').
Proof.
  intros l F S g s st' (Hn & Hi & Hs & He) HF (Ha & Hst & Hrep & Hord & Hc). cbv zeta in Hc.
  pose proof (uval_range (init l)) as RI. pose proof (uval_range (end_ l)) as RE. pose proof (uval_range (step l)) as RS.
  unfold modulus in RI, RE, RS. rewrite Hi in RI. rewrite He in RE. rewrite Hs in RS.
  fold (m l) in RI, RE, RS, Hc. pose proof (m_pos l) as Hmp.
  set (I := uval (init l)) in *. set (E := uval (end_ l)) in *. set (st := uval (step l)) in *.
  assert (m l = 2 * 2 ^ (Z.of_nat (width l) - 1)) as Em.
  { unfold m. replace (Z.of_nat (width l)) with (1 + (Z.of_nat (width l) - 1)) at 1 by lia. now rewrite Z.pow_add_r by lia. }
  destruct (signed_spec (width l) I Hn RI) as (SI & qi & EI). fold (m l) in EI.
  assert (forall d, 0 <= d -> signed (width l) I + d < 2 ^ (Z.of_nat (width l) - 1) ->
    signed (width l) ((I + d) mod m l) = signed (width l) I + d) as SL.
  { intros d Hd Hb. apply signed_mod; [assumption|lia|]. fold (m l).
    rewrite EI at 1. replace (signed (width l) I + qi * m l + d) with (signed (width l) I + d + qi * m l) by ring.
    now rewrite Z.mod_add by lia. }
  destruct (compare l) eqn:C; try contradiction.
  - apply (unroll_unknown_ok l S g F ltac:(lia) I E); try assumption; try lia.
    intros j _ Hj. fold I E st. rewrite C. cbn [holds]. rewrite Z.mod_small by (fold st in Hj; nia). reflexivity.
  - apply (unroll_unknown_ok l S g F ltac:(lia) I (E + 1)); try assumption; try lia.
    intros j _ Hj. fold I E st. rewrite C. cbn [holds]. rewrite Z.mod_small by (fold st in Hj; nia).
    apply bool_iff. rewrite Z.leb_le, Z.ltb_lt. lia.
  - apply (unroll_unknown_ok l S g F ltac:(lia) (signed (width l) I) (signed (width l) E)); try assumption; try lia.
    intros j _ Hj. fold I E st. fold st in Hj. rewrite C. cbn [holds]. rewrite SL by nia. reflexivity.
  - apply (unroll_unknown_ok l S g F ltac:(lia) (signed (width l) I) (signed (width l) E + 1)); try assumption; try lia.
    intros j _ Hj. fold I E st. fold st in Hj. rewrite C. cbn [holds]. rewrite SL by nia.
    apply bool_iff. rewrite Z.leb_le, Z.ltb_lt. lia.
Qed.
Print Assumptions unroll_unknown_preserves_semantics_partial.

(** ** the full statement is false *)
Fixpoint bin (n : nat) (v : Z) : list bool :=
  match n with O => [] | S n => Z.odd v :: bin n (Z.div2 v) end.
Definition mk (add : bool) (c : cmpop) (ef rep : bool) (i s e : Z) : loop :=
  {| width := 8; additive := add; idv_first := true; compare := c; end_first := ef; repeat_on := rep;
     init := bin 8 i; step := bin 8 s; end_ := bin 8 e |}.
(** Five loops of which niterations() answers a wrong trip count: a comparison
    other than ne/lt/le (the answer of the project's own unit test for eq), a
    subtraction counting down from 100 to 0 with step -1 (again its unit test),
    a zero step, the opposite match, and a loop whose variable starts at its
    end value (0 iterations are reported; a do-while loop runs at least once). *)
Theorem niterations_refuted :
  let wrong l claimed real := well_typed l /\ niterations l = Some (known (bin 8 claimed)) /\
                              trip_count l real /\ claimed <> real in
  wrong (mk true Eq false true 255 1 100) 101 1 /\
  wrong (mk false Ugt false true 100 255 0) 100 156 /\
  wrong (mk true Ult false true 5 0 5) 255 1 /\
  wrong (mk true Ult false false 0 1 100) 100 1 /\
  wrong (mk true Ult false true 5 1 5) 0 1.
Proof.
  assert (forall l k, 1 <= k -> forallb (fun j => repeats l (uval (end_ l)) (Nat.iter j (next l) (uval (init l)))) (seq 1 (Z.to_nat k - 1)) = true ->
    repeats l (uval (end_ l)) (Nat.iter (Z.to_nat k) (next l) (uval (init l))) = false -> trip_count l k) as T.
  { intros l k Hk Hall Hend. split; [lia|]. split; [|assumption]. intros j Hj. rewrite forallb_forall in Hall.
    apply Hall. apply in_seq. lia. }
  cbv zeta. repeat split; try (vm_compute; reflexivity); try (apply Nat.lt_0_succ); try discriminate;
    try (apply Nat.ltb_lt; reflexivity); try lia; try (vm_compute; discriminate);
    try (apply T; [lia|vm_compute; reflexivity|vm_compute; reflexivity]).
  all: match goal with |- trip_count ?l ?k => idtac | |- context [repeats ?l] => idtac end.
  all: try (eapply T; [lia|vm_compute; reflexivity|vm_compute; reflexivity]).
Qed.
Print Assumptions niterations_refuted.

(** Consequences for the transformation: a loop starting at its end value is
    replaced by 2^64 copies of its body (the copy loop's size_t bound
    underflows), and with run-time boundaries a loop whose variable starts at
    or beyond the end value loses the one iteration it must perform. *)
Theorem unroll_semantics_refuted :
  unroll_known (mk true Ult false true 5 1 5) 4 = Some (Full (2 ^ 64)) /\
  let l := mk true Ult false true 9 1 5 in
  original l unit (fun _ s => s) (9, tt) (10, tt) /\
  transformed_unknown l unit (fun _ s => s) 4 (9, tt) (9, tt) /\
  ~ transformed_unknown l unit (fun _ s => s) 4 (9, tt) (10, tt).
Proof.
  split; [vm_compute; reflexivity|]. cbv zeta. split; [|split].
  - apply (dw_stop (mk true Ult false true 9 1 5) unit (body (mk true Ult false true 9 1 5) unit (fun _ s => s)) 5 (9, tt)).
    vm_compute. reflexivity.
  - exists (9, tt). split; [vm_compute; reflexivity|]. vm_compute. reflexivity.
  - intros (st1 & H1 & H2).
    assert (ahead_test (mk true Ult false true 9 1 5) 4 (fst (9, tt)) = false) as A by (vm_compute; reflexivity).
    rewrite A in H1. subst st1. unfold residual in H2.
    assert (holds (width (mk true Ult false true 9 1 5)) (compare (mk true Ult false true 9 1 5)) (fst (9, tt))
      (uval (end_ (mk true Ult false true 9 1 5))) = false) as B by (vm_compute; reflexivity).
    rewrite B in H2. discriminate.
Qed.
Print Assumptions unroll_semantics_refuted.

(** Non-vacuity of the positive theorems. *)
Example ex_known : well_typed (mk true Slt false true 251 3 13) /\ counts_up (mk true Slt false true 251 3 13) /\
  niterations (mk true Slt false true 251 3 13) = Some (known (bin 8 6)) /\
  unroll_known (mk true Slt false true 251 3 13) 4 = Some (Looped (known (bin 8 7)) (known (bin 8 2))).
Proof.
  split; [repeat split; vm_compute; auto with arith; lia|].
  split; [split; [reflexivity|]; split; [vm_compute; discriminate|]; split; [reflexivity|]; vm_compute; reflexivity|].
  split; vm_compute; reflexivity.
Qed.
Example ex_unknown : well_typed (mk true Ule false true 3 5 21) /\ counts_up_with_room (mk true Ule false true 3 5 21) 4.
Proof.
  split; [repeat split; vm_compute; auto with arith; lia|].
  split; [reflexivity|]. split; [vm_compute; discriminate|]. split; [reflexivity|]. split; [reflexivity|].
  split; vm_compute; discriminate.
Qed.
