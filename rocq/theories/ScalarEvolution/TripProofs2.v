(** Trip counts of affine and quadratic recurrences. *)
From Coq Require Import ZArith List Bool Lia.
From stdpp Require Import tactics base list.
From Verif.ScalarEvolution Require Import Model Spec Proofs Proofs2 TripModel TripSpec TripProofs.
Local Open Scope Z_scope.

Lemma crval_affine a b i : crval [a; b] i = a + Z.of_nat i * b.
Proof.
  induction i as [|i IH]; [simpl; lia|]. rewrite crval_S, IH. simpl tail. rewrite crval_single. lia.
Qed.
Lemma crval_quadratic a b c i : 2 * crval [a; b; c] i = 2 * a + 2 * Z.of_nat i * b + Z.of_nat i * (Z.of_nat i - 1) * c.
Proof.
  induction i as [|i IH]; [simpl; lia|]. rewrite crval_S, Z.mul_add_distr_l, IH. simpl tail.
  rewrite crval_affine. lia.
Qed.
Lemma wrap64_id z : - 2 ^ 63 <= z < 2 ^ 63 -> wrap64 z = z.
Proof. intros H. unfold wrap64. rewrite Z.mod_small; lia. Qed.
Lemma wrapu_id z : 0 <= z < 2 ^ 64 -> wrapu z = z.
Proof. intros H. unfold wrapu. by apply Z.mod_small. Qed.

Lemma trip_count_intro (P : nat -> bool) q n : 0 <= q -> n = q + 1 ->
  (forall i, Z.of_nat i < q -> P i = true) -> P (Z.to_nat q) = false -> trip_count P n.
Proof.
  intros H -> H1 H2. exists (Z.to_nat q). split; [lia|]. split; [|done]. intros i Hi. apply H1. lia.
Qed.

Lemma rem_abs n d : d <> 0 -> (Z.rem n d =? 0) = (Z.abs n mod Z.abs d =? 0).
Proof.
  intros Hd. assert (E : Z.abs (Z.rem n d) = Z.abs n mod Z.abs d).
  { rewrite <- Z.rem_abs by done. apply Z.rem_mod_nonneg; lia. }
  destruct (Z.eqb_spec (Z.rem n d) 0), (Z.eqb_spec (Z.abs n mod Z.abs d) 0); lia.
Qed.

Definition steps (n d : Z) (incl : bool) : Z :=
  ceil_quot n d + (if incl && (n mod d =? 0) then 1 else 0).
Lemma ceil_quot_range n d : 0 <= n -> 0 < d -> 0 <= ceil_quot n d <= n.
Proof. intros Hn Hd. pose proof (ceil_quot_spec n d Hd). nia. Qed.

Lemma affine_backedge c start b bound : Z.abs (bound - start) < 2 ^ 53 -> Z.abs b < 2 ^ 53 ->
  b <> 0 -> 0 <= (bound - start) * b ->
  plus_one (ComputeBackedgeTakenCount start [b] bound c) =
  Count (steps (Z.abs (bound - start)) (Z.abs b) (is_equals_comparison c) + 1).
Proof.
  intros H1 H2 H3 H4. unfold ComputeBackedgeTakenCount.
  destruct (Z.eqb_spec b 0); [done|]. rewrite wrap64_id by lia.
  rewrite ceil_div_double_exact by done. rewrite rem_abs by done.
  pose proof (ceil_quot_range (Z.abs (bound - start)) (Z.abs b) ltac:(lia) ltac:(lia)).
  unfold plus_one, steps. rewrite (wrapu_id (ceil_quot _ _)) by lia.
  destruct (is_equals_comparison c && _); repeat rewrite wrapu_id by (rewrite ?wrapu_id by lia; lia); apply (f_equal Count); lia.
Qed.

(** The iterations of a bounded count. *)
Lemma steps_exclusive n d i : 0 <= n -> 0 < d -> (i * d < n <-> i < steps n d false).
Proof.
  intros Hn Hd. unfold steps. simpl. pose proof (ceil_quot_spec n d Hd). split; nia.
Qed.
Lemma steps_inclusive n d i : 0 <= n -> 0 < d -> (i * d <= n <-> i < steps n d true).
Proof.
  intros Hn Hd. unfold steps. simpl. pose proof (ceil_quot_spec n d Hd).
  pose proof (Z.div_mod n d ltac:(lia)). pose proof (Z.mod_pos_bound n d Hd).
  destruct (Z.eqb_spec (n mod d) 0).
  - assert (ceil_quot n d = n / d) by nia. split; nia.
  - assert (ceil_quot n d = n / d + 1) by nia. split; nia.
Qed.
Lemma steps_nonneg n d b : 0 <= n -> 0 < d -> 0 <= steps n d b.
Proof. intros. pose proof (ceil_quot_range n d). unfold steps. destruct (_ && _); lia. Qed.
Lemma steps_divides n d : 0 <= n -> 0 < d -> n mod d = 0 -> steps n d false * d = n.
Proof.
  intros Hn Hd H. unfold steps. simpl. pose proof (Z.div_mod n d ltac:(lia)).
  rewrite (ceil_quot_unique n d (n / d)); nia.
Qed.

Lemma affine_predict c start b bound : Z.abs (bound - start) < 2 ^ 53 -> Z.abs b < 2 ^ 53 ->
  match predict c start [b] bound with
  | Count n => trip_count (fun i => zcompare c (crval [start; b] i) bound) n
  | NoCount => endless (fun i => zcompare c (crval [start; b] i) bound)
  | Crash => False
  end.
Proof.
  intros H1 H2.
  assert (One : zcompare c start bound = false -> trip_count (fun i => zcompare c (crval [start; b] i) bound) 1).
  { intros H. apply (trip_count_intro _ 0); [done|done|lia|]. rewrite crval_affine.
    replace (start + _) with start by lia. exact H. }
  assert (End : (forall i, 0 <= i -> zcompare c (start + i * b) bound = true) ->
    endless (fun i => zcompare c (crval [start; b] i) bound)).
  { intros H i. rewrite crval_affine. apply H. lia. }
  assert (Ct : forall q, 0 <= q -> (forall i, 0 <= i < q -> zcompare c (start + i * b) bound = true) ->
    zcompare c (start + q * b) bound = false ->
    trip_count (fun i => zcompare c (crval [start; b] i) bound) (q + 1)).
  { intros q Hq Hi He. apply (trip_count_intro _ q); [done|done| |].
    - intros i Hlt. rewrite crval_affine. apply Hi. lia.
    - rewrite crval_affine. by rewrite Z2Nat.id by done. }
  unfold predict. cbv zeta.
  assert (Up : forall incl, is_equals_comparison c = incl -> 0 < b -> start <= bound ->
    (forall x, zcompare c x bound = if incl then x <=? bound else x <? bound) ->
    match plus_one (ComputeBackedgeTakenCount start [b] bound c) with
    | Count n => trip_count (fun i => zcompare c (crval [start; b] i) bound) n
    | NoCount => endless (fun i => zcompare c (crval [start; b] i) bound)
    | Crash => False end).
  { intros incl Hc Hb Hs Hz. rewrite affine_backedge by (try done; try lia; nia).
    rewrite Hc, (Z.abs_eq (bound - start)), (Z.abs_eq b) by lia.
    pose proof (steps_nonneg (bound - start) b incl ltac:(lia) Hb).
    apply Ct; [done| |].
    - intros i Hi. rewrite Hz. destruct incl.
      + pose proof (steps_inclusive (bound - start) b i ltac:(lia) Hb). apply Z.leb_le. nia.
      + pose proof (steps_exclusive (bound - start) b i ltac:(lia) Hb). apply Z.ltb_lt. nia.
    - rewrite Hz. destruct incl.
      + pose proof (steps_inclusive (bound - start) b (steps (bound - start) b true) ltac:(lia) Hb).
        apply Z.leb_gt. nia.
      + pose proof (steps_exclusive (bound - start) b (steps (bound - start) b false) ltac:(lia) Hb).
        apply Z.ltb_ge. nia. }
  assert (Down : forall incl, is_equals_comparison c = incl -> b < 0 -> bound <= start ->
    (forall x, zcompare c x bound = if incl then bound <=? x else bound <? x) ->
    match plus_one (ComputeBackedgeTakenCount start [b] bound c) with
    | Count n => trip_count (fun i => zcompare c (crval [start; b] i) bound) n
    | NoCount => endless (fun i => zcompare c (crval [start; b] i) bound)
    | Crash => False end).
  { intros incl Hc Hb Hs Hz. rewrite affine_backedge by (try done; try lia; nia).
    rewrite Hc, (Z.abs_neq (bound - start)), (Z.abs_neq b) by lia.
    replace (- (bound - start)) with (start - bound) by lia.
    pose proof (steps_nonneg (start - bound) (- b) incl ltac:(lia) ltac:(lia)).
    apply Ct; [done| |].
    - intros i Hi. rewrite Hz. destruct incl.
      + pose proof (steps_inclusive (start - bound) (- b) i ltac:(lia) ltac:(lia)). apply Z.leb_le. nia.
      + pose proof (steps_exclusive (start - bound) (- b) i ltac:(lia) ltac:(lia)). apply Z.ltb_lt. nia.
    - rewrite Hz. destruct incl.
      + pose proof (steps_inclusive (start - bound) (- b) (steps (start - bound) (- b) true) ltac:(lia) ltac:(lia)).
        apply Z.leb_gt. nia.
      + pose proof (steps_exclusive (start - bound) (- b) (steps (start - bound) (- b) false) ltac:(lia) ltac:(lia)).
        apply Z.ltb_ge. nia. }
  destruct c.
  1-8: simpl step_positive; simpl step_negative.
  1: destruct (Z.leb_spec bound start); [apply One; apply Z.ltb_ge; lia|];
     destruct (Z.ltb_spec 0 b); [apply (Up false); try done; lia|apply End; intros i Hi; apply Z.ltb_lt; nia].
  1: destruct (Z.ltb_spec bound start); [apply One; apply Z.leb_gt; lia|];
     destruct (Z.ltb_spec 0 b); [apply (Up true); try done; lia|apply End; intros i Hi; apply Z.leb_le; nia].
  1: destruct (Z.leb_spec bound start); [apply One; apply Z.ltb_ge; lia|];
     destruct (Z.ltb_spec 0 b); [apply (Up false); try done; lia|apply End; intros i Hi; apply Z.ltb_lt; nia].
  1: destruct (Z.ltb_spec bound start); [apply One; apply Z.leb_gt; lia|];
     destruct (Z.ltb_spec 0 b); [apply (Up true); try done; lia|apply End; intros i Hi; apply Z.leb_le; nia].
  1: destruct (Z.leb_spec start bound); [apply One; apply Z.ltb_ge; lia|];
     destruct (Z.ltb_spec b 0); [apply (Down false); try done; lia|apply End; intros i Hi; apply Z.ltb_lt; nia].
  1: destruct (Z.ltb_spec start bound); [apply One; apply Z.leb_gt; lia|];
     destruct (Z.ltb_spec b 0); [apply (Down true); try done; lia|apply End; intros i Hi; apply Z.leb_le; nia].
  1: destruct (Z.leb_spec start bound); [apply One; apply Z.ltb_ge; lia|];
     destruct (Z.ltb_spec b 0); [apply (Down false); try done; lia|apply End; intros i Hi; apply Z.ltb_lt; nia].
  1: destruct (Z.ltb_spec start bound); [apply One; apply Z.leb_gt; lia|];
     destruct (Z.ltb_spec b 0); [apply (Down true); try done; lia|apply End; intros i Hi; apply Z.leb_le; nia].
  - (* Ne *)
    rewrite wrap64_id by lia.
    destruct (Z.eqb_spec start bound) as [->|Hne].
    { destruct (Z.ltb_spec 0 b).
      - cbn [andb]. rewrite Z.leb_refl, Z.sub_diag. rewrite Z.rem_0_l by lia. rewrite Z.eqb_refl. cbn [andb].
        pose proof (affine_backedge Ne bound b bound) as B. rewrite Z.sub_diag in B.
        rewrite B by lia. simpl is_equals_comparison. change (Z.abs 0) with 0.
        unfold steps, ceil_quot. simpl. rewrite Z.div_0_l by lia. apply One. simpl. by rewrite Z.eqb_refl.
      - cbn [andb]. destruct (Z.ltb_spec b 0); cbn [andb].
        + rewrite Z.leb_refl, Z.sub_diag. rewrite Z.rem_0_l by lia. rewrite Z.eqb_refl. cbn [andb].
          pose proof (affine_backedge Ne bound b bound) as B. rewrite Z.sub_diag in B.
          rewrite B by lia. simpl is_equals_comparison. change (Z.abs 0) with 0.
          unfold steps, ceil_quot. simpl. rewrite Z.div_0_l by lia. apply One. simpl. by rewrite Z.eqb_refl.
        + apply One. simpl. by rewrite Z.eqb_refl. }
    assert (Nd : forall i, 0 <= i -> i * b = bound - start -> b <> 0 /\ Z.rem (bound - start) b = 0 /\ 0 <= (bound - start) * b).
    { intros i Hi E. assert (b <> 0) by nia. split; [done|]. rewrite <- E. rewrite Z.rem_mul by done. split; [done|]. nia. }
    assert (Hit : b <> 0 -> 0 <= (bound - start) * b -> Z.rem (bound - start) b = 0 ->
      match plus_one (ComputeBackedgeTakenCount start [b] bound Ne) with
      | Count n => trip_count (fun i => zcompare Ne (crval [start; b] i) bound) n
      | NoCount => endless (fun i => zcompare Ne (crval [start; b] i) bound)
      | Crash => False end).
    { intros Hb Hs Hr. rewrite affine_backedge by done. simpl is_equals_comparison.
      assert (Hm : Z.abs (bound - start) mod Z.abs b = 0).
      { apply Z.eqb_eq. rewrite <- rem_abs by done. by apply Z.eqb_eq. }
      pose proof (steps_divides (Z.abs (bound - start)) (Z.abs b) ltac:(lia) ltac:(lia) Hm) as Sd.
      pose proof (steps_nonneg (Z.abs (bound - start)) (Z.abs b) false ltac:(lia) ltac:(lia)).
      apply Ct; [done| |].
      - intros i Hi. simpl. apply negb_true_iff, Z.eqb_neq. nia.
      - simpl. apply negb_false_iff, Z.eqb_eq. nia. }
    destruct ((0 <? b) && _) eqn:C1.
    { apply andb_prop in C1 as [B1 B2]. apply andb_prop in B2 as [B2 B3].
      apply Z.ltb_lt in B1. apply Z.leb_le in B2. apply Z.eqb_eq in B3. apply Hit; [lia|nia|done]. }
    destruct ((b <? 0) && _) eqn:C2.
    { apply andb_prop in C2 as [B1 B2]. apply andb_prop in B2 as [B2 B3].
      apply Z.ltb_lt in B1. apply Z.leb_le in B2. apply Z.eqb_eq in B3. apply Hit; [lia|nia|done]. }
    apply End. intros i Hi. simpl. apply negb_true_iff, Z.eqb_neq. intros E.
    destruct (Nd i Hi) as (N1 & N2 & N3); [lia|].
    apply andb_false_iff in C1. apply andb_false_iff in C2. rewrite N2, Z.eqb_refl, !andb_true_r in *.
    destruct (Z.ltb_spec 0 b), (Z.ltb_spec b 0), (Z.leb_spec start bound), (Z.leb_spec bound start);
      destruct C1, C2; try done; try lia; nia.
  - (* Eq *)
    destruct (Z.eqb_spec start bound) as [->|Hne].
    + simpl. destruct (Z.eqb_spec b 0) as [->|Hb]; simpl.
      * apply End. intros i Hi. simpl. apply Z.eqb_eq. lia.
      * change 2 with (1 + 1). apply Ct; [lia| |].
        -- intros i Hi. simpl. apply Z.eqb_eq. nia.
        -- simpl. apply Z.eqb_neq. lia.
    + apply One. simpl. by apply Z.eqb_neq.
Qed.

(** * Values of w bits *)
Lemma fits_compare w c x y : (0 < w)%nat -> fits w c x -> fits w c y -> compare w c x y = zcompare c x y.
Proof.
  intros Hw.
  assert (P : 2 ^ Z.of_nat w = 2 * 2 ^ (Z.of_nat w - 1)).
  { rewrite <- Z.pow_succ_r by lia. f_equal. lia. }
  pose proof (pow2_pos (Z.of_nat w - 1) ltac:(lia)) as HP.
  assert (S : forall z, - 2 ^ (Z.of_nat w - 1) <= z < 2 ^ (Z.of_nat w - 1) -> signed w z = z).
  { intros z Hz. unfold signed, unsigned. destruct (Z.lt_ge_cases z 0).
    - rewrite <- (Z.mod_add z 1) by lia. rewrite Z.mod_small by lia.
      destruct (Z.ltb_spec (z + 1 * 2 ^ Z.of_nat w) (2 ^ (Z.of_nat w - 1))); lia.
    - rewrite Z.mod_small by lia. destruct (Z.ltb_spec z (2 ^ (Z.of_nat w - 1))); lia. }
  assert (U : forall z, 0 <= z < 2 ^ Z.of_nat w -> unsigned w z = z).
  { intros z Hz. unfold unsigned. by apply Z.mod_small. }
  assert (SE : forall a b, signed w a = signed w b <-> unsigned w a = unsigned w b).
  { intros a b. unfold signed. pose proof (Z.mod_pos_bound a (2 ^ Z.of_nat w) ltac:(lia)).
    pose proof (Z.mod_pos_bound b (2 ^ Z.of_nat w) ltac:(lia)). unfold unsigned in *.
    destruct (Z.ltb_spec (a mod 2 ^ Z.of_nat w) (2 ^ (Z.of_nat w - 1))),
      (Z.ltb_spec (b mod 2 ^ Z.of_nat w) (2 ^ (Z.of_nat w - 1))); lia. }
  assert (E : forall a b, - 2 ^ (Z.of_nat w - 1) <= a < 2 ^ (Z.of_nat w - 1) ->
    - 2 ^ (Z.of_nat w - 1) <= b < 2 ^ (Z.of_nat w - 1) -> (unsigned w a =? unsigned w b) = (a =? b)).
  { intros a b Ha Hb. destruct (Z.eqb_spec (unsigned w a) (unsigned w b)) as [Q|Q]; symmetry.
    - apply SE in Q. rewrite !S in Q by done. by apply Z.eqb_eq.
    - apply Z.eqb_neq. intros ->. done. }
  destruct c; simpl; intros Hx Hy; rewrite ?S, ?U, ?E by done; done.
Qed.
Lemma fits_trip_count w c f y n : (0 < w)%nat -> fits w c y ->
  (forall i, Z.of_nat i < n -> fits w c (f i)) ->
  trip_count (fun i => zcompare c (f i) y) n -> trip_count (fun i => compare w c (f i) y) n.
Proof.
  intros Hw Hy Hf (m & -> & H1 & H2). exists m. split; [done|]. split.
  - intros i Hi. rewrite fits_compare; auto. apply Hf. lia.
  - rewrite fits_compare; auto. apply Hf. lia.
Qed.
