(** Properties of the trip count prediction (C76, C77). *)
From Coq Require Import ZArith List Bool Lia.
From stdpp Require Import tactics base list.
From Verif.ScalarEvolution Require Import Model Spec Proofs Proofs2 TripModel TripSpec TripProofs TripProofs2 TripProofs3.
Local Open Scope Z_scope.

Lemma eqw_unsigned w x y : eqw w x y -> unsigned w x = unsigned w y.
Proof. Transparent eqw. intros [k ->]. unfold unsigned. apply Z.mod_add. lia. Opaque eqw. Qed.
Lemma eqw_compare w c x y z : eqw w x y -> compare w c x z = compare w c y z.
Proof. intros H%eqw_unsigned. destruct c; simpl; unfold signed; by rewrite H. Qed.

(** * C76: affine recurrences *)

(** The left operand of the comparison has, in iteration i, a value of [w] bits
    described by {start,+,step}; the right one is the constant [bound].  If a trip
    count n is predicted, then n is the number of iterations, provided the values
    of the first n iterations do not overflow; if none is predicted, then the loop
    is endless, unless the values overflow. *)
Theorem affine_trip_count_partial w c start step bound (val : nat -> Z) : (0 < w)%nat ->
  Z.abs (bound - start) < 2 ^ 53 -> Z.abs step < 2 ^ 53 -> fits w c bound ->
  (forall i, eqw w (val i) (crval [start; step] i)) ->
  match GetPredictedTripCount true c [Const start; Const step] [Const bound] with
  | Count n => (forall i, Z.of_nat i < n -> fits w c (crval [start; step] i)) ->
               trip_count (fun i => compare w c (val i) bound) n
  | NoCount => (forall i, fits w c (crval [start; step] i)) ->
               endless (fun i => compare w c (val i) bound)
  | Crash => False
  end.
Proof.
  intros Hw H1 H2 Hb Hv. unfold GetPredictedTripCount. simpl constants. cbv iota.
  pose proof (affine_predict c start step bound H1 H2) as A. destruct (predict _ _ _ _) as [n| |]; [| |done].
  - intros Hf. apply (fits_trip_count w) in A; [|done..]. destruct A as (m & -> & A1 & A2).
    exists m. split; [done|]. split.
    + intros i Hi. rewrite (eqw_compare w c _ _ bound (Hv i)). by apply A1.
    + by rewrite (eqw_compare w c _ _ bound (Hv m)).
  - intros Hf i. rewrite (eqw_compare w c _ _ bound (Hv i)). rewrite fits_compare by auto. apply A.
Qed.
Example affine_example : GetPredictedTripCount true Slt [Const 2; Const 3] [Const 11] = Count 4 /\
  (forall i, Z.of_nat i < 4 -> fits 8 Slt (crval [2; 3] i)) /\ fits 8 Slt 11.
Proof.
  split; [by vm_compute|]. split; [|simpl; lia]. intros i Hi. rewrite crval_affine. simpl. lia.
Qed.
(** A constant on the left is taken to be on the right: 10 > i, with
    i = {0,+,1}. *)
Theorem constant_on_left_refuted : exists c bound start step n,
  GetPredictedTripCount true c [Const bound] [Const start; Const step] = Count n /\
  ~ trip_count (fun i => compare 32 c bound (crval [start; step] i)) n /\
  trip_count (fun i => compare 32 c bound (crval [start; step] i)) 11.
Proof.
  exists Sgt, 10, 0, 1, 1. split; [by vm_compute|]. split.
  - intros (m & Hm & _ & E). assert (m = 0%nat) as -> by lia. discriminate.
  - exists 10%nat. split; [done|]. split; [|by vm_compute]. intros i Hi.
    rewrite crval_affine. rewrite fits_compare; simpl; try lia.
Qed.
(** The alternatives of the match node are not looked at. *)
Theorem inverted_match_refuted : exists c bound start step n,
  GetPredictedTripCount false c [Const start; Const step] [Const bound] = Count n /\
  ~ trip_count (fun i => negb (compare 32 c (crval [start; step] i) bound)) n.
Proof.
  exists Slt, 10, 0, 1, 11. split; [by vm_compute|]. intros (m & Hm & H & _).
  specialize (H 0%nat ltac:(lia)). discriminate.
Qed.
(** Unsigned comparisons are treated as signed ones: i = {2^32-1,+,1} < 10. *)
Theorem unsigned_comparison_refuted : exists start step bound n,
  GetPredictedTripCount true Ult [Const start; Const step] [Const bound] = Count n /\
  (forall i, Z.of_nat i < n -> - 2 ^ 31 <= crval [start; step] i < 2 ^ 31) /\
  ~ trip_count (fun i => compare 32 Ult (crval [start; step] i) bound) n.
Proof.
  exists (-1), 1, 10, 12. split; [by vm_compute|]. split.
  - intros i Hi. rewrite crval_affine. lia.
  - intros (m & Hm & H & _). specialize (H 0%nat ltac:(lia)). discriminate.
Qed.
(** Beyond 2^53 the count is rounded. *)
Theorem rounded_count_refuted : exists start step bound n,
  GetPredictedTripCount true Slt [Const start; Const step] [Const bound] = Count n /\
  (forall i, Z.of_nat i < n + 1 -> fits 64 Slt (crval [start; step] i)) /\
  ~ trip_count (fun i => compare 64 Slt (crval [start; step] i) bound) n.
Proof.
  exists 0, 1, (2 ^ 53 + 1), (2 ^ 53 + 1). split; [by vm_compute|].
  assert (F : forall i, Z.of_nat i < 2 ^ 53 + 1 + 1 -> fits 64 Slt (crval [0; 1] i)).
  { intros i Hi. rewrite crval_affine. simpl fits. lia. }
  split; [done|].
  intros (m & Hm & _ & E). rewrite fits_compare in E; [|lia|apply F; lia|simpl fits; lia].
  rewrite crval_affine in E. simpl zcompare in E. apply Z.ltb_ge in E. lia.
Qed.
(** Overflow is not considered: an 8 bit counter with step 100 and bound 120. *)
Theorem overflow_refuted : exists start step bound n,
  GetPredictedTripCount true Slt [Const start; Const step] [Const bound] = Count n /\
  ~ trip_count (fun i => compare 8 Slt (crval [start; step] i) bound) n.
Proof.
  exists 0, 100, 120, 3. split; [by vm_compute|]. intros (m & Hm & _ & E).
  assert (m = 2%nat) as -> by lia. discriminate.
Qed.

(** * C77: quadratic recurrences *)

(** The same for {start,+,first,+,second}, if the second increment is nonzero, has
    the sign of the first one, and is at most twice as large.  (For comparisons
    with != no count is predicted except 1.) *)
Theorem quadratic_trip_count_partial w c start first second bound (val : nat -> Z) : (0 < w)%nat ->
  small start -> small bound -> small first -> small second ->
  0 < second <= 2 * first \/ 2 * first <= second < 0 -> fits w c bound ->
  (forall i, eqw w (val i) (crval [start; first; second] i)) ->
  match GetPredictedTripCount true c [Const start; Const first; Const second] [Const bound] with
  | Count n => (forall i, Z.of_nat i < n -> fits w c (crval [start; first; second] i)) ->
               trip_count (fun i => compare w c (val i) bound) n
  | NoCount => c = Ne \/ ((forall i, fits w c (crval [start; first; second] i)) ->
               endless (fun i => compare w c (val i) bound))
  | Crash => False
  end.
Proof.
  intros Hw H1 H2 H3 H4 H5 Hb Hv. unfold GetPredictedTripCount. simpl constants. cbv iota.
  pose proof (quadratic_predict c start first second bound H1 H2 H3 H4 H5) as A.
  destruct (predict _ _ _ _) as [n| |]; [| |done].
  - intros Hf. apply (fits_trip_count w) in A; [|done..]. destruct A as (m & -> & A1 & A2).
    exists m. split; [done|]. split.
    + intros i Hi. rewrite (eqw_compare w c _ _ bound (Hv i)). by apply A1.
    + by rewrite (eqw_compare w c _ _ bound (Hv m)).
  - destruct A as [A|A]; [by left|right].
    intros Hf i. rewrite (eqw_compare w c _ _ bound (Hv i)). rewrite fits_compare by auto. apply A.
Qed.
Example quadratic_example :
  GetPredictedTripCount true Sle [Const 0; Const 1; Const 2] [Const 9] = Count 5 /\
  (forall i, Z.of_nat i < 5 -> fits 8 Sle (crval [0; 1; 2] i)) /\ fits 8 Sle 9.
Proof.
  split; [by vm_compute|]. split; [|simpl; lia]. intros i Hi.
  assert (C : (i = 0 \/ i = 1 \/ i = 2 \/ i = 3 \/ i = 4)%nat) by lia.
  destruct C as [->|[->|[->|[->| ->]]]]; simpl; lia.
Qed.
(** A second increment of zero leads to a division by zero. *)
Theorem quadratic_division_by_zero_crash :
  GetPredictedTripCount true Slt [Const 0; Const 1; Const 0] [Const 10] = Crash.
Proof. by vm_compute. Qed.
(** With a larger second increment the wrong root is taken: {0,+,0,+,1} < 1 is
    predicted to run once; it runs three times. *)
Theorem quadratic_wrong_root_refuted : exists start first second bound n,
  GetPredictedTripCount true Slt [Const start; Const first; Const second] [Const bound] = Count n /\
  ~ trip_count (fun i => compare 32 Slt (crval [start; first; second] i) bound) n /\
  trip_count (fun i => compare 32 Slt (crval [start; first; second] i) bound) 3.
Proof.
  exists 0, 0, 1, 1, 1. split; [by vm_compute|]. split.
  - intros (m & Hm & _ & E). assert (m = 0%nat) as -> by lia. discriminate.
  - exists 2%nat. split; [done|]. split; [|by vm_compute]. intros i Hi.
    assert (C : (i = 0 \/ i = 1)%nat) by lia. destruct C as [->| ->]; by vm_compute.
Qed.
(** Equality with a first increment of zero: {5,+,0,+,1} == 5 is predicted to run
    twice; it runs three times. *)
Theorem quadratic_equality_refuted : exists start first second bound n,
  GetPredictedTripCount true Eq [Const start; Const first; Const second] [Const bound] = Count n /\
  ~ trip_count (fun i => compare 32 Eq (crval [start; first; second] i) bound) n.
Proof.
  exists 5, 0, 1, 5, 2. split; [by vm_compute|].
  intros (m & Hm & _ & E). assert (m = 1%nat) as -> by lia. discriminate.
Qed.
