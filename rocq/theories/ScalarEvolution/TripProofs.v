(** Trip counts: rounding, and affine recurrences. *)
From Coq Require Import ZArith List Bool Lia.
From stdpp Require Import tactics base list.
From Verif.ScalarEvolution Require Import Model Spec TripModel TripSpec.
Local Open Scope Z_scope.

Lemma pow2_pos k : 0 <= k -> 0 < 2 ^ k. Proof. intros. apply Z.pow_pos_nonneg; lia. Qed.

(** * Rounding *)
Lemma scale_le a b e K : 0 <= K -> 0 <= K + e ->
  a * 2 ^ Z.max 0 e <= b * 2 ^ Z.max 0 (- e) <-> a * 2 ^ (K + e) <= b * 2 ^ K.
Proof.
  intros H1 H2. pose (m := K - Z.max 0 (- e)).
  assert (E1 : K + e = Z.max 0 e + m) by (unfold m; lia).
  assert (E2 : K = Z.max 0 (- e) + m) by (unfold m; lia).
  assert (Hm : 0 <= m) by (unfold m; lia).
  rewrite E1. replace (2 ^ K) with (2 ^ (Z.max 0 (- e) + m)) by (f_equal; lia). rewrite !Z.pow_add_r by lia. rewrite !Z.mul_assoc.
  pose proof (pow2_pos m Hm). split; intros H0.
  - by apply Z.mul_le_mono_nonneg_r; [lia|].
  - by apply Z.mul_le_mono_pos_r in H0.
Qed.

Lemma expo_spec n d K : 0 < n -> 0 < d -> 0 <= K -> 0 <= K + expo n d ->
  d * 2 ^ (K + expo n d) <= n * 2 ^ K /\ n * 2 ^ K < d * 2 ^ (K + expo n d + 1).
Proof.
  intros Hn Hd HK. pose proof (Z.log2_spec n Hn) as [N1 N2]. pose proof (Z.log2_spec d Hd) as [D1 D2].
  pose proof (Z.log2_nonneg n). pose proof (Z.log2_nonneg d).
  unfold expo. set (e := Z.log2 n - Z.log2 d).
  pose proof (pow2_pos K HK) as HP.
  destruct (Z.leb_spec (d * 2 ^ Z.max 0 e) (n * 2 ^ Z.max 0 (- e))) as [L|L]; intros He.
  - split; [by apply scale_le|].
    apply (Z.lt_le_trans _ (2 ^ (Z.succ (Z.log2 n)) * 2 ^ K)).
    { by apply Z.mul_lt_mono_pos_r. }
    apply (Z.le_trans _ (2 ^ Z.log2 d * 2 ^ (K + e + 1))).
    { rewrite <- !Z.pow_add_r by lia. apply Z.pow_le_mono_r; unfold e; lia. }
    apply Z.mul_le_mono_nonneg_r; [|done]. apply Z.pow_nonneg. lia.
  - split.
    + apply (Z.le_trans _ (2 ^ (Z.succ (Z.log2 d)) * 2 ^ (K + (e - 1)))).
      { apply Z.mul_le_mono_nonneg_r; [apply Z.pow_nonneg; lia|lia]. }
      apply (Z.le_trans _ (2 ^ Z.log2 n * 2 ^ K)).
      { rewrite <- !Z.pow_add_r by lia. apply Z.pow_le_mono_r; unfold e; lia. }
      apply Z.mul_le_mono_nonneg_r; lia.
    + replace (K + (e - 1) + 1) with (K + e) by lia.
      destruct (Z.lt_ge_cases (n * 2 ^ K) (d * 2 ^ (K + e))) as [?|G]; [done|].
      apply scale_le in G; lia.
Qed.

Lemma rne_le n d k : 0 < d -> n <= k * d -> rne n d <= k.
Proof.
  intros Hd H. unfold rne. pose proof (Z.div_mod n d ltac:(lia)) as E.
  pose proof (Z.mod_pos_bound n d Hd) as B.
  assert (Q : n / d < k \/ (n / d = k /\ n mod d = 0)).
  { destruct (Z.lt_ge_cases (n / d) k); [by left|]. right. nia. }
  destruct (Z.ltb_spec (2 * (n mod d)) d); [lia|].
  destruct (Z.ltb_spec d (2 * (n mod d))); [lia|].
  destruct (Z.even _); lia.
Qed.
Lemma rne_ge n d k : 0 < d -> k * d <= n -> k <= rne n d.
Proof.
  intros Hd H. unfold rne. assert (k <= n / d) by (apply Z.div_le_lower_bound; lia).
  destruct (Z.ltb_spec (2 * (n mod d)) d); [lia|].
  destruct (Z.ltb_spec d (2 * (n mod d))); [lia|].
  destruct (Z.even _); lia.
Qed.
Lemma rne_gt n d k : 0 < d -> 2 * k * d + d < 2 * n -> k < rne n d.
Proof.
  intros Hd H. unfold rne. pose proof (Z.div_mod n d ltac:(lia)) as E.
  pose proof (Z.mod_pos_bound n d Hd) as B.
  assert (Q : k < n / d \/ (n / d = k /\ d < 2 * (n mod d))).
  { destruct (Z.lt_ge_cases k (n / d)); [by left|]. right. nia. }
  destruct (Z.ltb_spec (2 * (n mod d)) d); [lia|].
  destruct (Z.ltb_spec d (2 * (n mod d))); [lia|].
  destruct (Z.even _); lia.
Qed.

(** The exponent of a quotient of numbers of at most 53 bits. *)
Lemma expo_bound n d : 0 < n < 2 ^ 53 -> 0 < d -> expo n d <= 52.
Proof.
  intros Hn Hd. unfold expo. pose proof (Z.log2_nonneg d).
  assert (Z.log2 n < 53) by (apply Z.log2_lt_pow2; lia).
  destruct (_ <=? _); lia.
Qed.
Lemma expo_quot n d : 0 < n < 2 ^ 53 -> 0 < d < 2 ^ 53 -> d < 2 * 2 ^ (52 - expo n d).
Proof.
  intros Hn Hd. pose proof (expo_bound n d Hn ltac:(lia)) as B.
  rewrite <- Z.pow_succ_r by lia. destruct (Z.lt_ge_cases (expo n d) 0) as [H|H].
  - apply (Z.lt_le_trans _ (2 ^ 53)); [lia|]. apply Z.pow_le_mono_r; lia.
  - destruct (expo_spec n d 0) as [L _]; try lia. rewrite Z.add_0_l, Z.pow_0_r, Z.mul_1_r in L.
    apply (Z.mul_lt_mono_pos_r (2 ^ expo n d)); [by apply pow2_pos|].
    rewrite <- Z.pow_add_r by lia. replace (Z.succ (52 - expo n d) + expo n d) with 53 by lia. lia.
Qed.

Definition ceil_quot (n d : Z) : Z := - (- n / d).
Lemma ceil_quot_spec n d : 0 < d -> (ceil_quot n d - 1) * d < n <= ceil_quot n d * d.
Proof.
  intros Hd. unfold ceil_quot. pose proof (Z.div_mod (- n) d ltac:(lia)).
  pose proof (Z.mod_pos_bound (- n) d Hd). nia.
Qed.
Lemma ceil_quot_unique n d k : 0 < d -> (k - 1) * d < n <= k * d -> ceil_quot n d = k.
Proof. intros Hd H. pose proof (ceil_quot_spec n d Hd). nia. Qed.

Lemma ceil_fl_quot n d : 0 < n < 2 ^ 53 -> 0 < d < 2 ^ 53 -> ceil_fl (fl_quot n d) = ceil_quot n d.
Proof.
  intros Hn Hd. unfold fl_quot, ceil_fl. pose proof (expo_bound n d Hn ltac:(lia)) as B.
  pose proof (expo_quot n d Hn Hd) as Q. set (s := 52 - expo n d) in *.
  rewrite (Z.max_r 0 s) by lia. rewrite (Z.max_l 0 (- s)) by lia. rewrite Z.pow_0_r, !Z.mul_1_r.
  pose proof (pow2_pos s ltac:(lia)) as HP. pose proof (ceil_quot_spec n d ltac:(lia)) as C.
  set (k := ceil_quot n d) in *.
  change (- (- rne (n * 2 ^ s) d / 2 ^ s)) with (ceil_quot (rne (n * 2 ^ s) d) (2 ^ s)).
  apply ceil_quot_unique; [done|]. split.
  - apply rne_gt; [lia|].
    assert ((k - 1) * d * 2 ^ s + 2 ^ s <= n * 2 ^ s) by nia. nia.
  - apply rne_le; [lia|]. nia.
Qed.
Lemma to_double_exact z : - 2 ^ 53 < z < 2 ^ 53 -> to_double z = z.
Proof.
  intros H. unfold to_double. destruct (Z.eqb_spec z 0) as [->|Hz]; [done|].
  unfold fl_quot, floor_fl. pose proof (expo_bound (Z.abs z) 1 ltac:(lia) ltac:(lia)) as B.
  set (s := 52 - expo (Z.abs z) 1) in *.
  rewrite (Z.max_r 0 s) by lia. rewrite (Z.max_l 0 (- s)) by lia. rewrite Z.pow_0_r, !Z.mul_1_r.
  pose proof (pow2_pos s ltac:(lia)) as HP.
  assert (E : rne (Z.abs z * 2 ^ s) 1 = Z.abs z * 2 ^ s).
  { apply Z.le_antisymm; [apply rne_le; lia|apply rne_ge; lia]. }
  rewrite E, Z.div_mul by lia. lia.
Qed.
Lemma ceil_div_double_exact n d : Z.abs n < 2 ^ 53 -> Z.abs d < 2 ^ 53 -> d <> 0 -> 0 <= n * d ->
  ceil_div_double n d = ceil_quot (Z.abs n) (Z.abs d).
Proof.
  intros Hn Hd H0 Hs. unfold ceil_div_double. rewrite !to_double_exact by lia.
  destruct (Z.eqb_spec n 0) as [->|Hz]; [done|].
  assert (E : Z.sgn n = Z.sgn d) by nia.
  rewrite E, Z.eqb_refl. apply ceil_fl_quot; lia.
Qed.

Lemma sqrt_double_exact d : 0 <= d < 2 ^ 52 -> floor_sqrt_double d = Z.sqrt d.
Proof.
  intros Hd. unfold floor_sqrt_double. rewrite to_double_exact by lia.
  destruct (Z.eqb_spec d 0) as [->|Hz]; [done|].
  pose proof (Z.log2_spec d ltac:(lia)) as [L1 L2].
  assert (HL : Z.log2 d < 52) by (apply Z.log2_lt_pow2; lia). pose proof (Z.log2_nonneg d).
  set (e := Z.log2 d / 2). assert (He : 0 <= e <= 25).
  { unfold e. split; [apply Z.div_pos; lia|]. enough (Z.log2 d / 2 < 26) by lia. apply Z.div_lt_upper_bound; lia. }
  assert (Hk : Z.sqrt d + 1 <= 2 ^ (e + 1)).
  { assert (d < (2 ^ (e + 1)) * (2 ^ (e + 1))).
    { apply (Z.lt_le_trans _ _ _ L2). rewrite <- Z.pow_add_r by lia. apply Z.pow_le_mono_r; [lia|].
      unfold e. pose proof (Z.div_mod (Z.log2 d) 2 ltac:(lia)). pose proof (Z.mod_pos_bound (Z.log2 d) 2 ltac:(lia)). lia. }
    assert (Z.sqrt d < 2 ^ (e + 1)); [|lia]. apply Z.sqrt_lt_square; [lia|apply Z.pow_nonneg; lia|done]. }
  set (s := 52 - e). set (k := Z.sqrt d) in *.
  assert (K : k * k <= d < (k + 1) * (k + 1)) by (pose proof (Z.sqrt_spec d ltac:(lia)) as S0; cbv zeta in S0; fold k in S0; unfold Z.succ in S0; exact S0).
  assert (Kp : 0 <= k) by apply Z.sqrt_nonneg.
  assert (HP : 0 < 2 ^ s) by (apply pow2_pos; unfold s; lia).
  assert (HP2 : k + 1 <= 2 ^ s).
  { apply (Z.le_trans _ _ _ Hk). apply Z.pow_le_mono_r; unfold s; lia. }
  assert (E4 : 4 ^ s = 2 ^ s * 2 ^ s).
  { change 4 with (2 * 2). rewrite Z.pow_mul_l. done. }
  rewrite E4. set (p := 2 ^ s) in *. set (x := d * (p * p)).
  pose proof (Z.sqrt_spec x ltac:(unfold x; nia)) as X. cbv zeta in X. pose proof (Z.sqrt_nonneg x).
  set (t := Z.sqrt x) in *.
  assert (T1 : k * p <= t).
  { apply Z.sqrt_le_square; unfold x; nia. }
  assert (T2 : t < (k + 1) * p).
  { apply Z.sqrt_lt_square; unfold x; nia. }
  set (m := if t * t + t <? x then t + 1 else t).
  assert (M : k * p <= m < (k + 1) * p).
  { unfold m. destruct (Z.ltb_spec (t * t + t) x) as [G|]; [|lia]. split; [lia|].
    destruct (Z.lt_ge_cases (t + 1) ((k + 1) * p)) as [?|Hc]; [done|]. exfalso.
    assert (Et : t = (k + 1) * p - 1) by lia.
    assert (U : d <= (k + 1) * (k + 1) - 1) by lia.
    assert (x <= ((k + 1) * (k + 1) - 1) * (p * p)) by (unfold x; nia).
    rewrite Et in G. nia. }
  symmetry. apply (Z.div_unique m p k (m - k * p)); lia.
Qed.
