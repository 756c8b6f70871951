From Coq Require Import ZArith List Bool Lia Zdiv.
From Verif.Bits Require Import Model Spec Proofs.
Import ListNotations.
Local Open Scope Z_scope.

(** ** multiplication *)
Lemma mul_row_known (f : bool) (f2 p : list bool) (c : bool) :
  (length f2 <= length p)%nat ->
  exists p' k, mul_row (known1 f) (known f2) (known p) (known1 c) = known p' /\ length p' = length p /\
    uval p' + modulus f2 * k = uval p + b2 f * uval f2 + b2 c.
Proof.
  revert p c. induction f2 as [|y f2 IH]; intros p c Hl.
  - exists p, (b2 c). split; [reflexivity|]. split; [reflexivity|]. rewrite modulus_nil. change (uval []) with 0. lia.
  - destruct p as [|x p]; [simpl in Hl; lia|]. simpl in Hl.
    cbn [known map mul_row]. fold (known f2) (known p).
    rewrite land_known, carry_known, add3_known.
    set (s := f && y).
    destruct (IH p (s && x || s && c || x && c) ltac:(lia)) as (p' & k & He & Hp & Hv).
    exists (xorb (xorb s x) c :: p'), k. rewrite He.
    split; [reflexivity|]. split; [simpl; lia|].
    rewrite !uval_cons, modulus_cons. pose proof (full_adder s x c) as F.
    assert (b2 s = b2 f * b2 y) as Hs by (unfold s; now destruct f, y). nia.
Qed.
Lemma mul_loop_known (f1 f2 p : list bool) :
  (length f1 + length f2 <= length p)%nat ->
  exists p' k, mul_loop (known f1) (known f2) (known p) = known p' /\ length p' = length p /\
    uval p' + modulus f2 * k = uval p + uval f1 * uval f2.
Proof.
  revert p. induction f1 as [|x f1 IH]; intros p Hl.
  - exists p, 0. split; [reflexivity|]. split; [reflexivity|]. change (uval []) with 0. lia.
  - cbn [known map mul_loop]. fold (known f1). simpl in Hl.
    destruct (mul_row_known x f2 p false ltac:(lia)) as (p1 & k1 & He & Hp & Hv).
    change B0 with (known1 false). rewrite He. destruct p1 as [|y p1]; [simpl in Hp; lia|].
    cbn [known map]. fold (known p1). simpl in Hp.
    destruct (IH p1 ltac:(lia)) as (p2 & k2 & He2 & Hp2 & Hv2). rewrite He2.
    exists (y :: p2), (k1 + 2 * k2). split; [reflexivity|]. split; [simpl; lia|].
    rewrite !uval_cons in *. change (b2 false) with 0 in Hv. nia.
Qed.
Lemma mul_loop_mod (f1 f2 p : list bool) :
  (length f1 + length f2 <= length p)%nat -> uval p = 0 ->
  exists p', mul_loop (known f1) (known f2) (known p) = known p' /\ length p' = length p /\
    uval p' mod modulus f2 = (uval f1 * uval f2) mod modulus f2.
Proof.
  intros H Hz. destruct (mul_loop_known f1 f2 p H) as (p' & k & He & Hl & Hv). exists p'.
  split; [exact He|]. split; [exact Hl|]. pose proof (modulus_pos f2).
  replace (uval f1 * uval f2) with (uval p' + k * modulus f2) by lia. now rewrite Z.mod_add by lia.
Qed.
Lemma mul_ok a b : length a = length b -> a <> [] ->
  exists p, mul (known a) (known b) = Some (known p) /\ length p = length a /\
    uval p = (uval a * uval b) mod modulus a.
Proof.
  intros Hl Ha. assert (0 < length a)%nat by (destruct a; [congruence|simpl; lia]).
  unfold mul. rewrite same_width_known by assumption. cbn [negb]. unfold nbits. rewrite known_length.
  rewrite of_int_zero by lia. change B0 with (known1 false). rewrite <- known_repeat.
  destruct (mul_loop_mod a b (repeat false (2 * length a))) as (p & He & Hp & Hv).
  - rewrite repeat_length. lia.
  - apply uval_zeros.
  - rewrite repeat_length in Hp. rewrite He, slice_known by lia. rewrite Nat.sub_0_r. cbn [skipn].
    exists (firstn (length a) p). split; [reflexivity|]. split; [rewrite firstn_length; lia|].
    rewrite uval_firstn. unfold modulus in *. now rewrite <- Hl in Hv.
Qed.
Lemma mulh_core n f1 f2 P : (0 < n)%nat -> length f1 = (2 * n)%nat -> length f2 = (2 * n)%nat ->
  (uval f1 * uval f2) mod 2 ^ Z.of_nat (2 * n) = P mod 2 ^ Z.of_nat (2 * n) ->
  exists p, slice (mul_loop (known f1) (known f2) (repeat B0 (4 * n))) n (2 * n) = Some (known p) /\
    length p = n /\ uval p = (P / 2 ^ Z.of_nat n) mod 2 ^ Z.of_nat n.
Proof.
  intros Hn H1 H2 HP. change B0 with (known1 false). rewrite <- known_repeat.
  destruct (mul_loop_mod f1 f2 (repeat false (4 * n))) as (p & He & Hp & Hv).
  - rewrite repeat_length. lia.
  - apply uval_zeros.
  - rewrite repeat_length in Hp. rewrite He, slice_known by lia.
    exists (firstn (2 * n - n) (skipn n p)). split; [reflexivity|].
    split; [rewrite firstn_length, skipn_length; lia|].
    replace (2 * n - n)%nat with n by lia.
    rewrite uval_firstn, uval_skipn. unfold modulus in Hv. rewrite H2, HP in Hv.
    assert (0 < 2 ^ Z.of_nat n) as Hpos by (apply Z.pow_pos_nonneg; lia).
    set (m := 2 ^ Z.of_nat n) in *.
    assert (2 ^ Z.of_nat (2 * n) = m * m) as E.
    { unfold m. rewrite <- Z.pow_add_r by lia. f_equal. lia. }
    rewrite E in Hv.
    assert (forall x, (x / m) mod m = (x mod (m * m)) / m) as D.
    { intros x. rewrite Z.rem_mul_r by lia. rewrite Z.mul_comm, Z.div_add by lia.
      rewrite (Z.div_small (x mod m)) by (apply Z.mod_pos_bound; lia). lia. }
    now rewrite !D, Hv.
Qed.
Lemma umulh_ok a b : length a = length b -> a <> [] ->
  exists p, umulh (known a) (known b) = Some (known p) /\ length p = length a /\
    uval p = (uval a * uval b) / modulus a.
Proof.
  intros Hl Ha. assert (0 < length a)%nat by (destruct a; [congruence|simpl; lia]).
  unfold umulh, mulh. rewrite same_width_known by assumption. cbn [negb]. unfold nbits. rewrite known_length.
  rewrite of_int_zero by lia. rewrite !zext_known.
  destruct (mulh_core (length a) (a ++ repeat false (length a)) (b ++ repeat false (length a)) (uval a * uval b))
    as (p & He & Hp & Hv); try assumption.
  - rewrite app_length, repeat_length. lia.
  - rewrite app_length, repeat_length. lia.
  - rewrite !uval_app, uval_zeros. f_equal. ring.
  - exists p. split; [exact He|]. split; [exact Hp|]. rewrite Hv. unfold modulus.
    apply Z.mod_small. pose proof (uval_range a) as Ra. pose proof (uval_range b) as Rb.
    rewrite (modulus_len b a) in Rb by congruence. unfold modulus in *.
    set (m := 2 ^ Z.of_nat (length a)) in *. split; [apply Z.div_pos; nia|].
    apply Z.div_lt_upper_bound; nia.
Qed.
Lemma smulh_ok a b : length a = length b -> a <> [] ->
  exists p, smulh (known a) (known b) = Some (known p) /\ length p = length a /\
    uval p = ((sval a * sval b) / modulus a) mod modulus a.
Proof.
  intros Hl Ha. assert (b <> []) as Hb by (destruct a, b; discriminate || congruence).
  assert (0 < length a)%nat by (destruct a; [congruence|simpl; lia]).
  unfold smulh, mulh. rewrite same_width_known by assumption. cbn [negb]. unfold nbits. rewrite known_length.
  rewrite of_int_zero by lia.
  destruct (sext_known a (length a) Ha) as (sa & -> & La & _ & Va).
  destruct (sext_known b (length a) Hb) as (sb & -> & Lb & _ & Vb).
  destruct (mulh_core (length a) sa sb (sval a * sval b)) as (p & He & Hp & Hv); try assumption; try lia.
  - rewrite Va, Vb. unfold modulus. rewrite La, Lb, <- Hl.
    replace (length a + length a)%nat with (2 * length a)%nat by lia. now rewrite <- Z.mul_mod by lia.
  - exists p. split; [exact He|]. split; [exact Hp|]. exact Hv.
Qed.

(** ** integers *)
Lemma push_bits_known n v : exists l, push_bits n v = known l /\ length l = n /\ uval l = v mod 2 ^ Z.of_nat n.
Proof.
  revert v. induction n as [|n IH]; intros v.
  - exists []. split; [reflexivity|]. split; [reflexivity|]. change (2 ^ Z.of_nat 0) with 1. now rewrite Z.mod_1_r.
  - destruct (IH (Z.shiftr v 1)) as (l & He & Hl & Hv). exists (Z.odd v :: l).
    split; [cbn [push_bits known map]; fold (known l); rewrite He; reflexivity|]. split; [simpl; lia|].
    rewrite uval_cons, Hv, Z.shiftr_div_pow2 by lia. change (2 ^ 1) with 2.
    rewrite Nat2Z.inj_succ, Z.pow_succ_r by lia.
    assert (0 < 2 ^ Z.of_nat n) by (apply Z.pow_pos_nonneg; lia).
    rewrite Z.rem_mul_r by lia. rewrite Zmod_odd. unfold b2. reflexivity.
Qed.
Lemma of_int_some n v : (0 < n)%nat -> (64 <= n)%nat \/ - 2 ^ Z.of_nat n <= v < 2 ^ Z.of_nat n ->
  exists l, of_int n v = Some (known l) /\ length l = n /\ uval l = v mod 2 ^ Z.of_nat n.
Proof.
  intros Hn Hr. unfold of_int. destruct (Nat.eqb_spec n 0); [lia|].
  destruct (push_bits_known n v) as (l & He & Hl & Hv). exists l. rewrite He.
  split; [|split; assumption].
  destruct (Nat.ltb_spec n 64); cbn [andb]; [|reflexivity].
  destruct Hr as [Hr|Hr]; [lia|]. rewrite Z.shiftr_div_pow2 by lia.
  set (m := 2 ^ Z.of_nat n) in *.
  assert (0 < m) by (apply Z.pow_pos_nonneg; lia).
  destruct (Z.ltb_spec v 0).
  - replace (v / m) with (-1); [now rewrite andb_false_r|]. apply Z.div_unique with (r := v + m); lia.
  - rewrite Z.div_small by lia. reflexivity.
Qed.
Lemma of_int_none n v : n = 0%nat \/ ((n < 64)%nat /\ ~ - 2 ^ Z.of_nat n <= v < 2 ^ Z.of_nat n) -> of_int n v = None.
Proof.
  intros [->|[Hn Hr]]; [reflexivity|]. unfold of_int. destruct (Nat.eqb_spec n 0); [reflexivity|].
  destruct (Nat.ltb_spec n 64); [|lia]. rewrite Z.shiftr_div_pow2 by lia. set (m := 2 ^ Z.of_nat n) in *.
  assert (0 < m) by (apply Z.pow_pos_nonneg; lia). cbn [andb].
  destruct (Z.eqb_spec (v / m) 0) as [E|E].
  - exfalso. apply Hr. pose proof (Z.div_mod v m ltac:(lia)). pose proof (Z.mod_pos_bound v m ltac:(lia)). nia.
  - destruct (Z.eqb_spec (v / m) (-1)) as [E'|E']; [|reflexivity]. exfalso. apply Hr.
    pose proof (Z.div_mod v m ltac:(lia)). pose proof (Z.mod_pos_bound v m ltac:(lia)). nia.
Qed.

Lemma lor_disjoint r k : 0 <= k -> 0 <= r < 2 ^ k -> Z.lor r (2 ^ k) = r + 2 ^ k.
Proof.
  intros Hk Hr. symmetry. rewrite <- Z.lxor_lor.
  - apply Z.add_nocarry_lxor. rewrite <- (Z.mod_small r (2 ^ k)) by lia.
    apply Z.bits_inj'. intros n Hn. rewrite Z.land_spec, Z.bits_0, Z.pow2_bits_eqb by lia.
    destruct (Z.eqb_spec k n) as [->|]; [|apply andb_false_r]. rewrite Z.mod_pow2_bits_high by lia. reflexivity.
  - rewrite <- (Z.mod_small r (2 ^ k)) by lia.
    apply Z.bits_inj'. intros n Hn. rewrite Z.land_spec, Z.bits_0, Z.pow2_bits_eqb by lia.
    destruct (Z.eqb_spec k n) as [->|]; [|apply andb_false_r]. rewrite Z.mod_pow2_bits_high by lia. reflexivity.
Qed.
Lemma accumulate_known l r k : 0 <= k -> 0 <= r < 2 ^ k -> k + Z.of_nat (length l) <= 64 ->
  accumulate (known l) r (2 ^ k mod 2 ^ 64) = Some (r + 2 ^ k * uval l).
Proof.
  revert r k. induction l as [|b l IH]; intros r k Hk Hr Hl.
  - cbn [known map accumulate]. change (uval []) with 0. f_equal. lia.
  - cbn [length] in Hl. rewrite Nat2Z.inj_succ in Hl.
    rewrite Z.mod_small by (split; [apply Z.pow_nonneg; lia|apply Z.pow_lt_mono_r; lia]).
    assert ((2 ^ k * 2) mod 2 ^ 64 = 2 ^ (k + 1) mod 2 ^ 64) as E.
    { f_equal. rewrite Z.pow_add_r by lia. reflexivity. }
    assert (2 ^ (k + 1) = 2 ^ k * 2) as E2 by (rewrite Z.pow_add_r by lia; reflexivity).
    rewrite uval_cons. destruct b; cbn [known map known1 accumulate]; fold (known l); rewrite E, IH.
    + f_equal. rewrite lor_disjoint by assumption. rewrite E2. unfold b2. ring.
    + lia.
    + rewrite lor_disjoint by assumption. lia.
    + lia.
    + f_equal. rewrite E2. unfold b2. ring.
    + lia.
    + lia.
    + lia.
Qed.
Lemma accumulate_known0 l : (length l <= 64)%nat -> accumulate (known l) 0 1 = Some (uval l).
Proof.
  intros H. change 1 with (2 ^ 0 mod 2 ^ 64) at 1. rewrite accumulate_known by (simpl; lia).
  f_equal. change (2 ^ 0) with 1. lia.
Qed.
Lemma accumulate_unknown l r p : is_known l = false -> accumulate l r p = None.
Proof.
  revert r p. induction l as [|b l IH]; intros r p H; [discriminate|].
  destruct b; simpl in *; auto.
Qed.
Lemma all_zero_known l : forallb (fun b => bit_eqb b B0) (known l) = (uval l =? 0).
Proof.
  induction l as [|b l IH]; [reflexivity|]. cbn [known map forallb]. fold (known l). rewrite IH, uval_cons.
  pose proof (uval_range l). destruct b; cbn [known1 bit_eqb andb b2].
  - symmetry. apply Z.eqb_neq. lia.
  - destruct (Z.eqb_spec (uval l) 0) as [->|]; symmetry; [reflexivity|apply Z.eqb_neq; lia].
Qed.
Lemma to_uint_ok l : to_uint (known l) = if uval l <? 2 ^ 64 then Some (uval l) else None.
Proof.
  unfold to_uint. cbv zeta. unfold nbits. rewrite known_length, known_skipn, known_firstn, all_zero_known, uval_skipn.
  pose proof (uval_range l) as Hr.
  rewrite accumulate_known0 by (rewrite firstn_length; lia). rewrite uval_firstn.
  destruct (Nat.le_gt_cases (length l) 64) as [Hl|Hl].
  - rewrite Nat.min_l by assumption. unfold modulus in Hr. rewrite Z.div_small by assumption. cbn [Z.eqb negb].
    rewrite Z.mod_small by assumption.
    assert (2 ^ Z.of_nat (length l) <= 2 ^ 64) by (apply Z.pow_le_mono_r; lia).
    destruct (Z.ltb_spec (uval l) (2 ^ 64)); [reflexivity|lia].
  - rewrite Nat.min_r by lia. change (Z.of_nat 64) with 64.
    destruct (Z.ltb_spec (uval l) (2 ^ 64)) as [H|H].
    + rewrite Z.div_small by lia. cbn [Z.eqb negb]. now rewrite Z.mod_small by lia.
    + destruct (Z.eqb_spec (uval l / 2 ^ 64) 0) as [E|E]; [|reflexivity].
      apply Z.div_small_iff in E; [lia|lia].
Qed.
Lemma is_known_app a b : is_known (a ++ b) = is_known a && is_known b.
Proof. apply forallb_app. Qed.
Lemma to_uint_unknown v : is_known v = false -> to_uint v = None.
Proof.
  intros H. unfold to_uint. cbv zeta. set (k := Nat.min (nbits v) 64).
  rewrite <- (firstn_skipn k v), is_known_app in H. apply andb_false_iff in H. destruct H as [H|H].
  - rewrite accumulate_unknown by assumption. now destruct (negb _).
  - replace (forallb _ (skipn k v)) with false; [reflexivity|]. symmetry. apply not_true_iff_false. intros F.
    rewrite forallb_forall in F. apply not_true_iff_false in H. apply H. apply forallb_forall. intros x Hx.
    specialize (F x Hx). now destruct x.
Qed.
Lemma all_eq_known (b : bool) l : forallb (fun x => bit_eqb x (known1 b)) (known l) = true <-> l = repeat b (length l).
Proof.
  induction l as [|x l IH]; [split; reflexivity|]. cbn [known map forallb length repeat]. fold (known l).
  rewrite andb_true_iff, IH. split.
  - intros [H1 H2]. f_equal; [now destruct x, b|exact H2].
  - intros H. injection H as H1 H2. subst b. split; [now destruct x|exact H2].
Qed.
Lemma known_is_known l : is_known (known l) = true.
Proof. induction l as [|[] l IH]; auto. Qed.
Lemma is_known_known v : is_known v = true -> exists l, v = known l.
Proof.
  induction v as [|b v IH]; [now exists []|]. simpl. rewrite andb_true_iff. intros [H1 H2].
  destruct (IH H2) as [l ->]. destruct b; try discriminate; [now exists (false :: l)|now exists (true :: l)].
Qed.

(** the sign-extended (or cut) 64-bit value of l *)
Lemma to_int_ok l : l <> [] ->
  to_int (known l) = if (- 2 ^ 63 <=? sval l) && (sval l <? 2 ^ 63) then Some (sval l) else None.
Proof.
  intros Hne. unfold to_int. cbv zeta. rewrite sign_known by assumption.
  set (s := negb (2 * uval l <? modulus l)). unfold nbits. rewrite known_length, known_skipn, known_firstn.
  rewrite <- known_repeat, <- known_app.
  rewrite accumulate_known0 by (rewrite app_length, firstn_length, repeat_length; lia).
  set (k := Nat.min (length l) 63).
  assert (0 < length l)%nat by (destruct l; [congruence|simpl; lia]).
  destruct (forallb (fun b => bit_eqb b (known1 s)) (known (skipn k l))) eqn:F.
  - apply all_eq_known in F. rewrite skipn_length in F. cbn [negb option_map].
    (* sval l = uval (firstn k l) - (if s then 2^k else 0) when k = 63; width <= 63: k = length *)
    assert (sval l = uval l - b2 s * modulus l) as Hsv.
    { unfold sval, s. destruct (Z.ltb_spec (2 * uval l) (modulus l)); cbn [negb b2]; lia. }
    destruct (Nat.le_gt_cases (length l) 63) as [Hl|Hl].
    + assert (k = length l) as Hk by (unfold k; lia).
      rewrite firstn_all2 by lia. rewrite uval_app.
      assert (uval (repeat s (64 - length l)) = b2 s * (2 ^ Z.of_nat (64 - length l) - 1)) as Hrep.
      { destruct s; [rewrite uval_ones|rewrite uval_zeros]; cbn [b2]; lia. }
      rewrite Hrep. pose proof (uval_range l) as Hr.
      assert (modulus l * 2 ^ Z.of_nat (64 - length l) = 2 ^ 64) as Hm.
      { unfold modulus. rewrite <- Z.pow_add_r by lia. f_equal. lia. }
      assert (modulus l <= 2 ^ 63) as Hm63 by (unfold modulus; apply Z.pow_le_mono_r; lia).
      pose proof (sval_range l Hne) as Hsr.
      replace ((- 2 ^ 63 <=? sval l) && (sval l <? 2 ^ 63)) with true.
      2:{ symmetry. apply andb_true_iff. split; [apply Z.leb_le|apply Z.ltb_lt]; lia. }
      f_equal. unfold to_int64. rewrite Hsv. change (2 ^ 64) with (2 * 2 ^ 63) in *. 
      destruct s; cbn [b2] in *.
      * destruct (Z.ltb_spec (uval l + modulus l * (1 * (2 ^ Z.of_nat (64 - length l) - 1))) (2 ^ 63)); [|lia].
        exfalso. lia.
      * destruct (Z.ltb_spec (uval l + modulus l * (0 * (2 ^ Z.of_nat (64 - length l) - 1))) (2 ^ 63)); lia.
    + assert (k = 63%nat) as Hk by (unfold k; lia). rewrite Hk in F.
      replace (64 - length l)%nat with 0%nat by lia. cbn [repeat]. rewrite app_nil_r, uval_firstn.
      assert (uval l = uval (firstn 63 l) + 2 ^ 63 * uval (skipn 63 l)) as Hsplit.
      { rewrite <- (firstn_skipn 63 l) at 1. rewrite uval_app. unfold modulus. rewrite firstn_length.
        replace (Nat.min 63 (length l)) with 63%nat by lia. reflexivity. }
      assert (modulus l = 2 ^ 63 * 2 ^ Z.of_nat (length l - 63)) as Hm.
      { unfold modulus. rewrite <- Z.pow_add_r by lia. f_equal. lia. }
      assert (uval (skipn 63 l) = b2 s * (2 ^ Z.of_nat (length l - 63) - 1)) as Hup.
      { rewrite F. destruct s; [rewrite uval_ones|rewrite uval_zeros]; cbn [b2]; lia. }
      pose proof (uval_range (firstn 63 l)) as Hr. unfold modulus in Hr. rewrite firstn_length in Hr.
      replace (Nat.min 63 (length l)) with 63%nat in Hr by lia. change (Z.of_nat 63) with 63 in Hr.
      set (lo := uval (firstn 63 l)) in *.
      assert (sval l = lo - b2 s * 2 ^ 63) as Hsv2.
      { rewrite Hsv, Hsplit, Hup, Hm. ring. }
      assert (uval l mod 2 ^ Z.of_nat 64 = lo + b2 s * 2 ^ 63) as Hmod.
      { symmetry. change (2 ^ Z.of_nat 64) with (2 * 2 ^ 63). 
        assert (2 ^ Z.of_nat (length l - 63) = 2 * 2 ^ Z.of_nat (length l - 64)) as Hp.
        { replace (Z.of_nat (length l - 63)) with (1 + Z.of_nat (length l - 64)) by lia. rewrite Z.pow_add_r by lia. reflexivity. }
        apply Z.mod_unique with (q := b2 s * (2 ^ Z.of_nat (length l - 64) - 1)).
        - left. destruct s; cbn [b2]; lia.
        - rewrite Hsplit, Hup, Hp. ring. }
      rewrite Hmod, Hsv2. unfold to_int64. change (2 ^ 64) with (2 * 2 ^ 63).
      replace ((- 2 ^ 63 <=? lo - b2 s * 2 ^ 63) && (lo - b2 s * 2 ^ 63 <? 2 ^ 63)) with true.
      2:{ symmetry. apply andb_true_iff. split; [apply Z.leb_le|apply Z.ltb_lt]; destruct s; cbn [b2]; lia. }
      f_equal. destruct s; cbn [b2].
      * destruct (Z.ltb_spec (lo + 1 * 2 ^ 63) (2 ^ 63)); lia.
      * destruct (Z.ltb_spec (lo + 0 * 2 ^ 63) (2 ^ 63)); lia.
  - cbn [negb].
    replace ((- 2 ^ 63 <=? sval l) && (sval l <? 2 ^ 63)) with false; [reflexivity|].
    symmetry. apply andb_false_iff.
    destruct (Z.leb_spec (- 2 ^ 63) (sval l)) as [H1|H1]; [|left; reflexivity]. right.
    apply Z.ltb_ge. apply Z.nlt_ge. intros H2.
    apply not_true_iff_false in F. apply F. apply all_eq_known. apply uval_inj; [now rewrite repeat_length|].
    destruct (Nat.le_gt_cases (length l) 63) as [Hl|Hl].
    + replace k with (length l) by (unfold k; lia). rewrite skipn_all. reflexivity.
    + assert (k = 63%nat) as Hk by (unfold k; lia). rewrite Hk, skipn_length, uval_skipn. change (Z.of_nat 63) with 63.
      assert (modulus l = 2 ^ 63 * 2 ^ Z.of_nat (length l - 63)) as Hm.
      { unfold modulus. rewrite <- Z.pow_add_r by lia. f_equal. lia. }
      pose proof (uval_range l) as Hr. unfold sval in *. unfold s.
      destruct (Z.ltb_spec (2 * uval l) (modulus l)); cbn [negb].
      * rewrite uval_zeros. apply Z.div_small. lia.
      * rewrite uval_ones. symmetry. apply Z.div_unique with (r := uval l - modulus l + 2 ^ 63); [left; lia|]. rewrite Hm. lia.
Qed.
Lemma in_skipn_S {A} (x : A) n l : In x (skipn (S n) l) -> In x (skipn n l).
Proof.
  revert n. induction l as [|y l IH]; intros n H; [destruct H|]. destruct n as [|n]; [right; exact H|].
  apply (IH n). exact H.
Qed.
Lemma to_int_unknown v : v <> [] -> is_known v = false -> to_int v = None.
Proof.
  intros Hne H. unfold to_int. cbv zeta. set (k := Nat.min (nbits v) 63).
  destruct (forallb (fun b => bit_eqb b (sign v)) (skipn k v)) eqn:F; [|reflexivity]. cbn [negb].
  rewrite accumulate_unknown; [reflexivity|].
  rewrite is_known_app. apply andb_false_iff. left. apply not_true_iff_false. intros K.
  apply not_true_iff_false in H. apply H.
  assert (0 < length v)%nat by (destruct v; [congruence|simpl; lia]).
  rewrite <- (firstn_skipn 64 v), is_known_app, K. cbn [andb].
  rewrite forallb_forall in F. apply forallb_forall. intros x Hx.
  assert (64 < length v)%nat as Hl.
  { destruct (Nat.le_gt_cases (length v) 64); [|assumption]. rewrite skipn_all2 in Hx by assumption. destruct Hx. }
  assert (k = 63%nat) as Hk by (unfold k, nbits; lia). rewrite Hk in F.
  assert (exists y rest, skipn 63 v = y :: rest) as (y & rest & Hy).
  { destruct (skipn 63 v) eqn:E; [|eauto]. apply (f_equal (@length _)) in E. rewrite skipn_length in E. simpl in E. lia. }
  assert (In y (firstn 64 v)) as Hin.
  { rewrite <- (firstn_skipn 63 v), Hy, firstn_app, firstn_firstn. apply in_or_app. right.
    rewrite firstn_length. replace (64 - Nat.min 63 (length v))%nat with 1%nat by lia. simpl. auto. }
  unfold is_known in K. rewrite forallb_forall in K. specialize (K y Hin).
  assert (bit_eqb y (sign v) = true) as Ey by (apply F; rewrite Hy; simpl; auto).
  assert (bit_eqb x (sign v) = true) as Ex.
  { apply F. now apply in_skipn_S. }
  destruct y, (sign v); try discriminate; destruct x; try discriminate; reflexivity.
Qed.
