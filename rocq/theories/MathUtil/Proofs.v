From Coq Require Import ZArith Lia.
From Verif.MathUtil Require Import Model Spec.
Local Open Scope Z_scope.

Lemma log2Floor_loop_ok fuel v :
  v < 2 ^ Z.of_nat fuel -> exists r, log2Floor_loop fuel v = Some r /\ is_log2_floor v r.
Proof.
  revert v. induction fuel as [|fuel IH]; intros v Hv; cbn [log2Floor_loop].
  - change (2 ^ Z.of_nat 0) with 1 in Hv.
    destruct (Z.ltb_spec v 1); [|lia]. eexists; split; [reflexivity|]. left. lia.
  - destruct (Z.ltb_spec v 1); [eexists; split; [reflexivity|]; left; lia|].
    rewrite Nat2Z.inj_succ, Z.pow_succ_r in Hv by lia.
    destruct (IH (Z.shiftr v 1)) as (r & Hr & Hs).
    { rewrite Z.shiftr_div_pow2 by lia. change (2 ^ 1) with 2. apply Z.div_lt_upper_bound; lia. }
    rewrite Hr. eexists; split; [reflexivity|]. right.
    rewrite Z.shiftr_div_pow2 in Hs by lia. change (2 ^ 1) with 2 in Hs.
    destruct Hs as [[Hs ->]|(H1 & H2 & H3)].
    + assert (v = 1).
      { assert (v / 2 = 0 \/ v / 2 < 0) as [|] by lia.
        - pose proof (Z.div_mod v 2 ltac:(lia)). pose proof (Z.mod_pos_bound v 2 ltac:(lia)). lia.
        - pose proof (Z.div_pos v 2 ltac:(lia) ltac:(lia)). lia. }
      subst v. repeat split; vm_compute; congruence.
    + replace (1 + r) with (Z.succ r) by lia.
      rewrite Z.pow_succ_r by lia. replace (Z.succ r + 1) with (Z.succ (r + 1)) by lia.
      rewrite (Z.pow_succ_r 2 (r + 1)) by lia.
      pose proof (Z.div_mod v 2 ltac:(lia)). pose proof (Z.mod_pos_bound v 2 ltac:(lia)). lia.
Qed.

Lemma in_range_lt (t : ity) v : 0 <= width t -> in_range t v -> v < 2 ^ width t.
Proof.
  unfold in_range, tmax. intros Hw [_ Hv]. destruct (is_signed t); [|lia].
  assert (2 ^ (width t - 1) <= 2 ^ width t); [|lia].
  apply Z.pow_le_mono_r; lia.
Qed.

Lemma log2Floor_ok t v :
  0 <= width t -> in_range t v -> exists r, log2Floor t v = Some r /\ is_log2_floor v r.
Proof.
  intros Hw Hv. apply log2Floor_loop_ok. rewrite Z2Nat.id by lia. now apply in_range_lt.
Qed.

Lemma convert_id t z : 1 <= width t -> in_range t z -> convert t z = z.
Proof.
  unfold in_range, convert, tmin, tmax. intros Hw Hz.
  assert (2 ^ width t = 2 * 2 ^ (width t - 1)) as Hp.
  { replace (width t) with (Z.succ (width t - 1)) at 1 by lia. rewrite Z.pow_succ_r; lia. }
  destruct (is_signed t).
  - rewrite Z.mod_small; lia.
  - rewrite Z.mod_small; lia.
Qed.

Lemma pow2_unique_ceil v l :
  0 <= l -> 2 ^ l <= v - 1 < 2 ^ (l + 1) -> is_ceil_pow2 v (2 ^ (l + 1)).
Proof.
  intros Hl Hv. split; [exists (l + 1); lia|]. split; [lia|].
  intros k Hk Hvk.
  destruct (Z.le_gt_cases (l + 1) k); [apply Z.pow_le_mono_r; lia|].
  exfalso. assert (2 ^ k <= 2 ^ l) by (apply Z.pow_le_mono_r; lia). lia.
Qed.

Lemma RoundUpToPowerOf2_ok t v r :
  2 <= width t -> in_range t v -> is_ceil_pow2 v r -> in_range t r ->
  RoundUpToPowerOf2 t v = Some r.
Proof.
  intros Hw Hv Hr Hin. unfold RoundUpToPowerOf2.
  destruct (Z.leb_spec v 1).
  - f_equal. destruct Hr as ((k & Hk & ->) & Hle & Hmin).
    specialize (Hmin 0). change (2 ^ 0) with 1 in Hmin.
    assert (0 < 2 ^ k) by (apply Z.pow_pos_nonneg; lia). lia.
  - destruct (log2Floor_ok t (v - 1)) as (l & Hl & Hs); [lia| |].
    { unfold in_range, tmin in *. destruct (is_signed t); [|lia].
      assert (0 < 2 ^ (width t - 1)) by (apply Z.pow_pos_nonneg; lia). lia. }
    rewrite Hl. destruct Hs as [[? ?]|(_ & Hl0 & Hb)]; [lia|].
    pose proof (pow2_unique_ceil v l Hl0 Hb) as (_ & Hle & Hmin).
    assert (r = 2 ^ (l + 1)) as ->.
    { destruct Hr as ((k & Hk & ->) & Hle' & Hmin').
      apply Z.le_antisymm; [apply Hmin'; lia|apply Hmin; lia]. }
    unfold shl_one.
    assert (l + 1 < width t) as Hlt.
    { apply in_range_lt in Hin; [|lia]. apply Z.pow_lt_mono_r_iff in Hin; lia. }
    destruct (Z.ltb_spec (l + 1) 0); [lia|]. destruct (Z.leb_spec (width t) (l + 1)); [lia|].
    simpl. f_equal. apply convert_id; [lia|exact Hin].
Qed.

Lemma ceil_pow2_exists v : exists r, is_ceil_pow2 v r.
Proof.
  destruct (Z.le_gt_cases v 1) as [H|H].
  - exists 1. split; [exists 0; split; [lia|reflexivity]|]. split; [lia|].
    intros k Hk _. assert (0 < 2 ^ k) by (apply Z.pow_pos_nonneg; lia). lia.
  - exists (2 ^ (Z.log2 (v - 1) + 1)). apply pow2_unique_ceil.
    + apply Z.log2_nonneg.
    + pose proof (Z.log2_spec (v - 1)). unfold Z.succ in *. lia.
Qed.

(** round up to multiple *)
Lemma ceil_multiple_formula v m :
  0 < m ->
  let miss := Z.rem v m in
  is_ceil_multiple v m (if miss <? 0 then v - miss else if miss =? 0 then v else v + m - miss).
Proof.
  intros Hm miss.
  pose proof (Z.quot_rem v m ltac:(lia)) as Hqr. fold miss in Hqr.
  assert (Z.abs miss < m) as Hab.
  { pose proof (Z.rem_bound_abs v m ltac:(lia)). fold miss in H. lia. }
  assert (forall a r k, v = m * a + r -> 0 < r < m -> v <= k * m -> v + m - r <= k * m) as Hpos.
  { intros a r k -> Hr Hk. assert (a < k) by nia. nia. }
  assert (forall a r k, v = m * a + r -> - m < r <= 0 -> v <= k * m -> v - r <= k * m) as Hneg.
  { intros a r k -> Hr Hk. assert (a <= k) by nia. nia. }
  destruct (Z.ltb_spec miss 0); [|destruct (Z.eqb_spec miss 0)].
  - split; [exists (v ÷ m); lia|]. split; [lia|]. intros k Hk. eapply Hneg; [exact Hqr|lia|exact Hk].
  - split; [exists (v ÷ m); lia|]. split; [lia|]. intros k Hk. lia.
  - split; [exists (v ÷ m + 1); lia|]. split; [lia|]. intros k Hk. eapply Hpos; [exact Hqr|lia|exact Hk].
Qed.

Lemma ceil_multiple_unique v m r r' :
  is_ceil_multiple v m r -> is_ceil_multiple v m r' -> r = r'.
Proof.
  intros ((k & ->) & Hle & Hmin) ((k' & ->) & Hle' & Hmin').
  apply Z.le_antisymm; [apply Hmin; exact Hle'|apply Hmin'; exact Hle].
Qed.

Lemma in_rangeb_spec t z : in_rangeb t z = true <-> in_range t z.
Proof. unfold in_rangeb, in_range. rewrite Bool.andb_true_iff, !Z.leb_le. tauto. Qed.

Lemma RoundUpToMultipleOf_unsigned w v m r :
  1 <= w -> let t := Ity false w in
  in_range t v -> in_range t m -> 0 < m -> is_ceil_multiple v m r -> in_range t r ->
  RoundUpToMultipleOf t v m = Some r.
Proof.
  intros Hw t Hv Hmr Hm Hr Hin. unfold RoundUpToMultipleOf.
  destruct (Z.eqb_spec m 0); [lia|].
  pose proof (ceil_multiple_formula v m Hm) as Hf. cbn zeta in Hf.
  unfold in_range, tmin, tmax in *. simpl in *.
  assert (0 <= Z.rem v m) as Hnn by (apply Z.rem_nonneg; lia).
  destruct (Z.ltb_spec (Z.rem v m) 0); [lia|].
  destruct (Z.eqb_spec (Z.rem v m) 0).
  - f_equal. eapply ceil_multiple_unique; eassumption.
  - assert (r = v + m - Z.rem v m) as -> by (eapply ceil_multiple_unique; eassumption).
    unfold arith. simpl. f_equal. rewrite Zminus_mod_idemp_l. apply Z.mod_small. lia.
Qed.

Lemma RoundUpToMultipleOf_signed w v m r :
  2 <= w -> let t := Ity true w in
  in_range t v -> in_range t m -> 0 < m -> is_ceil_multiple v m r -> v + m <= tmax t ->
  RoundUpToMultipleOf t v m = Some r.
Proof.
  intros Hw t Hv Hmr Hm Hr Hov. unfold RoundUpToMultipleOf.
  destruct (Z.eqb_spec m 0); [lia|].
  pose proof (ceil_multiple_formula v m Hm) as Hf. cbn zeta in Hf.
  assert (Z.abs (Z.rem v m) < m) as Hab.
  { pose proof (Z.rem_bound_abs v m ltac:(lia)). lia. }
  assert (arith t (v + m) = Some (v + m) /\
          forall z, v <= z <= v + m -> arith t z = Some z) as [_ Har].
  { assert (forall z, v <= z <= v + m -> arith t z = Some z) as Ha.
    { intros z Hz. unfold arith. simpl is_signed. cbv iota.
      replace (in_rangeb t z) with true; [reflexivity|]. symmetry. apply in_rangeb_spec.
      unfold in_range in *. lia. }
    split; [apply Ha; lia|exact Ha]. }
  destruct (Z.ltb_spec (Z.rem v m) 0).
  - assert (r = v - Z.rem v m) as -> by (eapply ceil_multiple_unique; eassumption).
    apply Har. lia.
  - destruct (Z.eqb_spec (Z.rem v m) 0).
    + f_equal. eapply ceil_multiple_unique; eassumption.
    + assert (r = v + m - Z.rem v m) as -> by (eapply ceil_multiple_unique; eassumption).
      rewrite Har by lia. apply Har. lia.
Qed.

Lemma BitsRequired_ok t v :
  1 <= width t -> in_range t v ->
  exists n, BitsRequiredToRepresent t v = Some n /\ is_bit_length (v mod 2 ^ width t) n.
Proof.
  intros Hw Hv. unfold BitsRequiredToRepresent.
  assert (0 < 2 ^ width t) as Hp by (apply Z.pow_pos_nonneg; lia).
  set (u := Ity false (width t)).
  replace (convert u v) with (v mod 2 ^ width t) by reflexivity.
  pose proof (Z.mod_pos_bound v (2 ^ width t) Hp) as Hb. set (x := v mod 2 ^ width t) in *.
  destruct (log2Floor_ok u x) as (l & -> & Hs); [simpl; lia| |].
  { unfold in_range, tmin, tmax. simpl. lia. }
  eexists; split; [reflexivity|].
  destruct Hs as [[H1 ->]|(H1 & H2 & H3)].
  - assert (x = 0) as -> by lia. change (-1 + 1) with 0. split; [lia|].
    split; [reflexivity|]. intros. lia.
  - split; [lia|]. split; [lia|]. intros k Hk Hlt.
    destruct (Z.le_gt_cases (l + 1) k); [lia|].
    assert (2 ^ k <= 2 ^ l) by (apply Z.pow_le_mono_r; lia). lia.
Qed.

Lemma convert_cong t z : 1 <= width t -> exists q, z = convert t z + q * 2 ^ width t.
Proof.
  intros Hw. unfold convert.
  assert (0 < 2 ^ width t) as Hp by (apply Z.pow_pos_nonneg; lia).
  destruct (is_signed t).
  - exists ((z + 2 ^ (width t - 1)) / 2 ^ width t).
    pose proof (Z.div_mod (z + 2 ^ (width t - 1)) (2 ^ width t) ltac:(lia)). lia.
  - exists (z / 2 ^ width t). pose proof (Z.div_mod z (2 ^ width t) ltac:(lia)). lia.
Qed.
Lemma convert_range t z : 1 <= width t -> in_range t (convert t z).
Proof.
  intros Hw. unfold in_range, tmin, tmax, convert.
  assert (0 < 2 ^ width t) as Hp by (apply Z.pow_pos_nonneg; lia).
  assert (2 ^ width t = 2 * 2 ^ (width t - 1)) as Hp2.
  { replace (width t) with (Z.succ (width t - 1)) at 1 by lia. rewrite Z.pow_succ_r; lia. }
  destruct (is_signed t).
  - pose proof (Z.mod_pos_bound (z + 2 ^ (width t - 1)) _ Hp). lia.
  - pose proof (Z.mod_pos_bound z _ Hp). lia.
Qed.

Lemma sign_extend_ok v k :
  1 <= k <= 64 -> exists r, truncateAndSignExtend v k = Some r /\ is_sign_extension v k r.
Proof.
  intros Hk. unfold truncateAndSignExtend.
  destruct (Z.leb_spec 64 (64 - k)); [lia|]. eexists; split; [reflexivity|].
  set (e := 64 - k).
  destruct (convert_cong int64 (v * 2 ^ e)) as [q Hq]; [simpl; lia|].
  pose proof (convert_range int64 (v * 2 ^ e) ltac:(simpl; lia)) as Hr.
  set (c := convert int64 (v * 2 ^ e)) in *.
  change (width int64) with 64 in Hq. unfold in_range, tmin, tmax, int64 in Hr. cbn [is_signed width] in Hr.
  rewrite Z.shiftr_div_pow2 by lia.
  assert (2 ^ 64 = 2 ^ k * 2 ^ e) as Hs by (rewrite <- Z.pow_add_r by lia; f_equal; lia).
  assert (2 ^ (64 - 1) = 2 ^ (k - 1) * 2 ^ e) as Hs1 by (rewrite <- Z.pow_add_r by lia; f_equal; lia).
  assert (0 < 2 ^ e) as He by (apply Z.pow_pos_nonneg; lia).
  assert (c = (v - q * 2 ^ k) * 2 ^ e) as Hc by (rewrite Hs in Hq; lia).
  rewrite Hc, Z.div_mul by lia. split.
  - rewrite Hs1, Hc in Hr. nia.
  - exists q. lia.
Qed.

Lemma zero_extend_ok v k :
  1 <= k <= 63 -> exists r, truncateAndZeroExtend v k = Some r /\ is_zero_extension v k r.
Proof.
  intros Hk. unfold truncateAndZeroExtend.
  destruct (Z.leb_spec 64 (64 - k)); [lia|]. eexists; split; [reflexivity|].
  set (e := 64 - k).
  destruct (convert_cong uint64 v) as [q0 Hq0]; [simpl; lia|].
  destruct (convert_cong uint64 (convert uint64 v * 2 ^ e)) as [q Hq]; [simpl; lia|].
  pose proof (convert_range uint64 (convert uint64 v * 2 ^ e) ltac:(simpl; lia)) as Hr.
  set (c := convert uint64 (convert uint64 v * 2 ^ e)) in *.
  change (width uint64) with 64 in Hq, Hq0. unfold in_range, tmin, tmax in Hr. cbn [is_signed width uint64] in Hr.
  rewrite Z.shiftr_div_pow2 by lia.
  assert (2 ^ 64 = 2 ^ k * 2 ^ e) as Hs by (rewrite <- Z.pow_add_r by lia; f_equal; lia).
  assert (0 < 2 ^ e) as He by (apply Z.pow_pos_nonneg; lia).
  assert (c = (convert uint64 v - q * 2 ^ k) * 2 ^ e) as Hc by (rewrite Hs in Hq; lia).
  set (u := convert uint64 v) in *.
  rewrite Hc, Z.div_mul by lia.
  assert (0 <= u - q * 2 ^ k < 2 ^ k) as Hb by (rewrite Hs, Hc in Hr; nia).
  rewrite convert_id.
  - split; [exact Hb|]. exists (q + q0 * 2 ^ e). rewrite Hq0, Hs. lia.
  - simpl; lia.
  - unfold in_range, tmin, tmax, int64. cbn [is_signed width].
    assert (2 ^ k <= 2 ^ 63) by (apply Z.pow_le_mono_r; lia).
    change (64 - 1) with 63. assert (0 < 2 ^ 63) by reflexivity. lia.
Qed.

Lemma zero_extend_64 v : truncateAndZeroExtend v 64 = Some (convert int64 v).
Proof.
  unfold truncateAndZeroExtend. simpl Z.sub. destruct (Z.leb_spec 64 0); [lia|].
  f_equal. rewrite Z.shiftr_0_r. change (2 ^ 0) with 1. rewrite Z.mul_1_r.
  unfold convert, int64, uint64. cbn [is_signed width].
  rewrite Z.mod_mod by (intros He; discriminate He).
  rewrite Zplus_mod_idemp_l. reflexivity.
Qed.
