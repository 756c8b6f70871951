(** Property theorems for BitValueRepresentation (C11 - C16). *)
From Coq Require Import ZArith List Bool Lia.
From Verif.Bits Require Import Model Spec Proofs Proofs2 Proofs3.
Import ListNotations.
Local Open Scope Z_scope.

(** ** C11 *)
(** Full statement: BitValueRepresentation(n, v) throws iff v is not
    representable in n bits (as an unsigned or as a two's complement number,
    i.e. iff not -2^(n-1) <= v < 2^n), and reading the value back gives v.
    What the code does: it accepts every v with -2^n <= v < 2^n. *)
Theorem construct_from_int_partial :
  forall (n : nat) (v : Z), - 2 ^ 63 <= v < 2 ^ 63 ->
  (of_int n v = None <-> (n = 0)%nat \/ ((n < 64)%nat /\ ~ - 2 ^ Z.of_nat n <= v < 2 ^ Z.of_nat n)) /\
  (forall r, of_int n v = Some r ->
     nbits r = n /\ exists l, r = known l /\ uval l = v mod 2 ^ Z.of_nat n).
Proof.
  intros n v Hv. split.
  - split; [|apply of_int_none]. intros H. destruct (Nat.eq_dec n 0) as [|Hn]; [now left|right].
    destruct (Nat.lt_ge_cases n 64) as [H64|H64].
    + split; [assumption|]. intros Hr. destruct (of_int_some n v) as (l & He & _); [lia|now right|]. congruence.
    + destruct (of_int_some n v) as (l & He & _); [lia|now left|]. congruence.
  - intros r H.
    assert ((0 < n)%nat /\ ((64 <= n)%nat \/ - 2 ^ Z.of_nat n <= v < 2 ^ Z.of_nat n)) as [Hn Hr].
    { destruct (Nat.eq_dec n 0) as [->|Hn]; [discriminate|]. split; [lia|].
      destruct (Nat.lt_ge_cases n 64) as [H64|H64]; [|now left]. right.
      destruct (Z_le_dec (- 2 ^ Z.of_nat n) v); [destruct (Z_lt_dec v (2 ^ Z.of_nat n)); [split; assumption|]|].
      - rewrite of_int_none in H; [discriminate|]. right. split; [assumption|]. lia.
      - rewrite of_int_none in H; [discriminate|]. right. split; [assumption|]. lia. }
    destruct (of_int_some n v Hn Hr) as (l & He & Hl & Hu). rewrite He in H. injection H as <-.
    split; [unfold nbits; now rewrite known_length|]. eauto.
Qed.
Print Assumptions construct_from_int_partial.

(** The documented rejection of unrepresentable values does not hold: -2 is
    not representable in one bit, yet it is accepted, as the value 0; in
    general every v in [-2^n, -2^(n-1)) is accepted and changes its value. *)
Theorem construct_from_int_refuted :
  of_int 1 (-2) = Some (known [false]) /\
  forall n v, (0 < n)%nat -> - 2 ^ Z.of_nat n <= v < - 2 ^ (Z.of_nat n - 1) ->
  exists l, of_int n v = Some (known l) /\ length l = n /\ uval l <> v /\ sval l <> v.
Proof.
  split; [vm_compute; reflexivity|].
  intros n v Hn Hv.
  assert (0 < 2 ^ (Z.of_nat n - 1)) by (apply Z.pow_pos_nonneg; lia).
  destruct (of_int_some n v Hn) as (l & He & Hl & Hu); [right; lia|].
  exists l. split; [exact He|]. split; [exact Hl|]. pose proof (uval_range l). split; [lia|].
  assert (l <> []) by (destruct l; [simpl in Hl; lia|discriminate]).
  pose proof (sval_range l H1) as Hr. unfold modulus in Hr. rewrite Hl in Hr.
  replace (Z.of_nat n) with (1 + (Z.of_nat n - 1)) in Hr by lia. rewrite Z.pow_add_r in Hr by lia. lia.
Qed.
Print Assumptions construct_from_int_refuted.

(** Round trip for representable values, through both readings. *)
Theorem int_round_trip :
  forall (n : nat) (v : Z), (0 < n)%nat -> - 2 ^ 63 <= v < 2 ^ 63 ->
  (- 2 ^ (Z.of_nat n - 1) <= v < 2 ^ (Z.of_nat n - 1) ->
     exists r, of_int n v = Some r /\ to_int r = Some v) /\
  (0 <= v < 2 ^ Z.of_nat n -> exists r, of_int n v = Some r /\ to_uint r = Some v).
Proof.
  intros n v Hn Hv. split; intros Hr.
  - assert (2 ^ Z.of_nat n = 2 * 2 ^ (Z.of_nat n - 1)) as E.
    { replace (Z.of_nat n) with (1 + (Z.of_nat n - 1)) at 1 by lia. now rewrite Z.pow_add_r by lia. }
    destruct (of_int_some n v Hn) as (l & He & Hl & Hu); [right; lia|].
    exists (known l). split; [exact He|].
    assert (l <> []) by (destruct l; [simpl in Hl; lia|discriminate]).
    rewrite to_int_ok by assumption.
    assert (sval l = v) as Es.
    { unfold sval, modulus. rewrite Hl, Hu. destruct (Z.ltb_spec v 0).
      - replace (v mod 2 ^ Z.of_nat n) with (v + 2 ^ Z.of_nat n).
        + destruct (Z.ltb_spec (2 * (v + 2 ^ Z.of_nat n)) (2 ^ Z.of_nat n)); lia.
        + apply Z.mod_unique with (q := -1); lia.
      - rewrite Z.mod_small by lia. destruct (Z.ltb_spec (2 * v) (2 ^ Z.of_nat n)); lia. }
    rewrite Es. destruct (Z.leb_spec (- 2 ^ 63) v), (Z.ltb_spec v (2 ^ 63)); try lia. reflexivity.
  - destruct (of_int_some n v Hn) as (l & He & Hl & Hu); [right; lia|].
    exists (known l). split; [exact He|]. rewrite to_uint_ok, Hu, Z.mod_small by lia.
    destruct (Z.ltb_spec v (2 ^ 64)); [reflexivity|lia].
Qed.
Print Assumptions int_round_trip.

(** Reading a value: to_uint / to_int give the exact unsigned / signed value
    whenever it fits in 64 bits and throw otherwise; they throw on any value
    with an unknown bit, whatever its width. *)
Theorem read_value :
  forall v : bits, v <> [] ->
  (forall l, v = known l ->
     to_uint v = (if uval l <? 2 ^ 64 then Some (uval l) else None) /\
     to_int v = (if (- 2 ^ 63 <=? sval l) && (sval l <? 2 ^ 63) then Some (sval l) else None)) /\
  ((forall l, v <> known l) -> to_uint v = None /\ to_int v = None).
Proof.
  intros v Hv. split.
  - intros l ->. split; [apply to_uint_ok|]. apply to_int_ok. now intros ->.
  - intros H. assert (is_known v = false) as E.
    { apply not_true_iff_false. intros K. apply is_known_known in K as [l ->]. now apply (H l). }
    split; [now apply to_uint_unknown|now apply to_int_unknown].
Qed.
Print Assumptions read_value.
Example ex_c11 : of_int 8 (-3) = Some [B1; B0; B1; B1; B1; B1; B1; B1] /\
  to_int [B1; B0; B1; B1; B1; B1; B1; B1] = Some (-3) /\ to_uint [B1; B0; B1; B1; B1; B1; B1; B1] = Some 253 /\
  to_int (repeat B1 100) = Some (-1) /\ to_uint (repeat B1 65) = None /\ to_int [B0; BD] = None.
Proof. vm_compute. repeat split. Qed.

(** ** C12 *)
Theorem arithmetic_exact :
  forall a b : list bool, a <> [] -> length a = length b ->
  let computes op (v : Z) := exists r, op (known a) (known b) = Some (known r) /\ length r = length a /\ uval r = v mod modulus a in
  computes add (uval a + uval b) /\
  computes sub (uval a - uval b) /\
  computes mul (uval a * uval b) /\
  computes umulh ((uval a * uval b) / modulus a) /\
  computes smulh ((sval a * sval b) / modulus a) /\
  computes land_v (Z.land (uval a) (uval b)) /\
  computes lor_v (Z.lor (uval a) (uval b)) /\
  computes lxor_v (Z.lxor (uval a) (uval b)).
Proof.
  intros a b Ha Hl computes. unfold computes. clear computes.
  assert (forall r, length r = length a -> uval r = uval r mod modulus a) as E.
  { intros r Hr. symmetry. apply Z.mod_small. rewrite <- (modulus_len r a Hr). apply uval_range. }
  repeat split.
  - now apply add_ok.
  - now apply sub_ok.
  - now apply mul_ok.
  - destruct (umulh_ok a b Hl Ha) as (r & ? & Hr & ?). exists r. rewrite <- H0. auto.
  - now apply smulh_ok.
  - destruct (land_v_ok a b Hl) as (r & ? & Hr & ?). exists r. rewrite <- H0. auto.
  - destruct (lor_v_ok a b Hl) as (r & ? & Hr & ?). exists r. rewrite <- H0. auto.
  - destruct (lxor_v_ok a b Hl) as (r & ? & Hr & ?). exists r. rewrite <- H0. auto.
Qed.
Print Assumptions arithmetic_exact.
Theorem unary_and_shifts_exact :
  forall (a : list bool) (s : nat), a <> [] ->
  (exists r, neg (known a) = known r /\ length r = length a /\ uval r = (- uval a) mod modulus a) /\
  (exists r, lnot_v (known a) = Some (known r) /\ length r = length a /\ uval r = Z.lnot (uval a) mod modulus a) /\
  (exists r, shl (known a) s = Some (known r) /\ length r = length a /\ uval r = Z.shiftl (uval a) (Z.of_nat s) mod modulus a) /\
  (exists r, shr (known a) s = Some (known r) /\ length r = length a /\ uval r = Z.shiftr (uval a) (Z.of_nat s)) /\
  (exists r, ashr (known a) s = Some (known r) /\ length r = length a /\ sval r = Z.shiftr (sval a) (Z.of_nat s)).
Proof.
  intros a s Ha. rewrite !Z.shiftr_div_pow2, Z.shiftl_mul_pow2 by lia.
  split; [apply neg_ok|]. split; [|split; [now apply shl_ok|split; [now apply shr_ok|now apply ashr_ok]]].
  destruct (lnot_v_ok a Ha) as (r & He & Hl & Hv). exists r. split; [exact He|]. split; [exact Hl|].
  rewrite Hv. unfold Z.lnot. rewrite Z.add_opp_l || idtac. pose proof (uval_range a).
  apply Z.mod_unique with (q := -1); [left; lia|]. unfold Z.pred. lia.
Qed.
Print Assumptions unary_and_shifts_exact.
(** Operands of different widths are rejected by every binary operation. *)
Theorem width_mismatch_rejected :
  forall a b : bits, length a <> length b ->
  add a b = None /\ sub a b = None /\ mul a b = None /\ umulh a b = None /\ smulh a b = None /\
  land_v a b = None /\ lor_v a b = None /\ lxor_v a b = None /\
  udiv a b = None /\ umod a b = None /\ sdiv a b = None /\ smod a b = None /\
  eq a b = None /\ ne a b = None /\ ult a b = None /\ ule a b = None /\ ugt a b = None /\ uge a b = None /\
  slt a b = None /\ sle a b = None /\ sgt a b = None /\ sge a b = None.
Proof.
  intros a b H.
  assert (forall v : bits, length (neg v) = length v) as Ln.
  { unfold neg. generalize B1. intros c v. revert c. induction v; intros c; simpl; [reflexivity|]. now rewrite IHv. }
  assert (forall v : bits, length (flip_sign v) = length v) as Lf.
  { induction v as [|x [|y v] IH]; [reflexivity|reflexivity|]. simpl in *. now rewrite IH. }
  assert (forall v : bits, length (abs_v v) = length v) as La by (intros v; unfold abs_v; destruct (is_negative v); auto).
  unfold add, sub, mul, umulh, smulh, mulh, land_v, lor_v, lxor_v, udiv, umod, sdiv, smod, eq, ugt, uge, sgt, sge, slt, sle, ult, ule, ne, add.
  rewrite !(same_width_false a b) by assumption.
  rewrite (same_width_false a (neg b)) by now rewrite Ln.
  rewrite !(same_width_false (flip_sign a) (flip_sign b)) by now rewrite !Lf.
  rewrite (divide_width a b) by assumption. rewrite (divide_width (abs_v a) (abs_v b)) by now rewrite !La.
  repeat split.
Qed.
Print Assumptions width_mismatch_rejected.
Example ex_c12 : mul (known [true; true; false; true]) (known [true; false; true; true]) = Some (known [true; true; true; true]) /\
  smulh (known [true; true; false; true]) (known [true; false; true; true]) = Some (known [false; false; false; false]).
Proof. vm_compute. split; reflexivity. Qed.

(** ** C13 *)
Theorem division_exact :
  forall a b : list bool, a <> [] -> length a = length b -> uval b <> 0 ->
  let computes op (v : Z) := exists r, op (known a) (known b) = Some (known r) /\ length r = length a /\ uval r = v mod modulus a in
  computes udiv (uval a / uval b) /\ computes umod (uval a mod uval b) /\
  computes sdiv (Z.quot (sval a) (sval b)) /\ computes smod (Z.rem (sval a) (sval b)).
Proof.
  intros a b Ha Hl Hb computes. unfold computes. clear computes.
  destruct (divide_ok a b Hl Ha Hb) as (q & r & He & Hq & Hr & Hdiv & Hmod).
  split; [|split; [|split; [now apply sdiv_ok|now apply smod_ok]]].
  - exists q. unfold udiv. rewrite He. split; [reflexivity|]. split; [assumption|].
    rewrite <- Hdiv. symmetry. apply Z.mod_small. rewrite <- (modulus_len q a) by assumption. apply uval_range.
  - exists r. unfold umod. rewrite He. split; [reflexivity|]. split; [assumption|].
    rewrite <- Hmod. symmetry. apply Z.mod_small. rewrite <- (modulus_len r a) by assumption. apply uval_range.
Qed.
Print Assumptions division_exact.
Theorem division_by_zero :
  forall a b : list bool, a <> [] -> length a = length b -> uval b = 0 ->
  udiv (known a) (known b) = Some (known (repeat true (length a))) /\ umod (known a) (known b) = Some (known a).
Proof. intros a b Ha Hl Hb. unfold udiv, umod. rewrite divide_zero by assumption. split; reflexivity. Qed.
Print Assumptions division_by_zero.
Example ex_c13 : (* -7 sdiv 2 = -3, -7 smod 2 = -1 *)
  sdiv (known [true; false; false; true]) (known [false; true; false; false]) = Some (known [true; false; true; true]) /\
  smod (known [true; false; false; true]) (known [false; true; false; false]) = Some (known [true; true; true; true]).
Proof. vm_compute. split; reflexivity. Qed.

(** ** C14 *)
Theorem comparisons_exact :
  forall a b : list bool, a <> [] -> length a = length b ->
  let decides op (v : bool) := op (known a) (known b) = Some (known1 v) in
  decides eq (uval a =? uval b) /\ decides ne (negb (uval a =? uval b)) /\
  decides ult (uval a <? uval b) /\ decides ule (uval a <=? uval b) /\
  decides ugt (uval a >? uval b) /\ decides uge (uval a >=? uval b) /\
  decides slt (sval a <? sval b) /\ decides sle (sval a <=? sval b) /\
  decides sgt (sval a >? sval b) /\ decides sge (sval a >=? sval b).
Proof.
  intros a b Ha Hl decides. unfold decides. clear decides. unfold eq, ugt, uge, sgt, sge.
  rewrite ne_ok, ult_ok, ule_ok, slt_ok, sle_ok by assumption. cbn [option_map]. rewrite !lnot_known, negb_involutive.
  rewrite !Z.geb_leb, !Z.gtb_ltb, <- !Z.ltb_antisym, <- !Z.leb_antisym. repeat split.
Qed.
Print Assumptions comparisons_exact.
Example ex_c14 : slt (known [true; false; true]) (known [false; true; false]) = Some B1 /\
  ult (known [true; false; true]) (known [false; true; false]) = Some B0.
Proof. vm_compute. split; reflexivity. Qed.

(** ** C15 *)
(** Full statement: every operation is sound_unary / sound_binary /
    sound_compare.  It is true of all of them except the divisions. *)
Theorem unknown_bits_sound_partial :
  (forall op, In op [add; sub; mul; umulh; smulh; land_v; lor_v; lxor_v] -> sound_binary op) /\
  (forall op, In op [eq; ne; ult; ule; ugt; uge; slt; sle; sgt; sge] -> sound_compare op) /\
  (forall op n low high, In op [lnot_v; (fun v => Some (neg v)); (fun v => shl v n); (fun v => shr v n); (fun v => ashr v n);
                        (fun v => zext v n); (fun v => sext v n); (fun v => slice v low high)] -> sound_unary op) /\
  sound_binary (fun a b => Some (concat_bits a b)).
Proof.
  pose proof agrees0 as A0. pose proof agrees1 as A1. pose proof agrees_or as Ao. pose proof agrees_and as Aa. pose proof agrees_xor as Ax.
  split; [|split; [|split]].
  - intros op H. repeat destruct H as [<-|H]; try destruct H; apply binary_sound; intros a b a' b' Ha Hb.
    + now apply RV_add. + now apply RV_sub. + now apply RV_mul. + now apply RV_umulh. + now apply RV_smulh.
    + now apply RV_land. + now apply RV_lor. + now apply RV_lxor.
  - intros op H. repeat destruct H as [<-|H]; try destruct H; apply compare_sound; intros a b a' b' Ha Hb.
    + apply R_optnot; auto. now apply R_ne.
    + now apply R_ne. + now apply R_ult. + now apply R_ule.
    + apply R_optnot; auto. now apply R_ule.
    + apply R_optnot; auto. now apply R_ult.
    + now apply R_slt. + now apply R_sle.
    + apply R_optnot; auto. now apply R_sle.
    + apply R_optnot; auto. now apply R_slt.
  - intros op n low high H. repeat destruct H as [<-|H]; try destruct H; apply unary_sound; intros a b Hn Ha.
    + now apply RV_lnot. + constructor. now apply RV_neg. + now apply RV_shl. + now apply RV_shr. + now apply RV_ashr.
    + now apply RV_zext. + now apply RV_sext. + now apply RV_slice.
  - apply binary_sound. intros. constructor. now apply RV_app.
Qed.
Print Assumptions unknown_bits_sound_partial.
(** The divisions are not sound: "D" udiv "1" is evaluated to "0", although
    filling in D = 1 gives 1 udiv 1 = 1; likewise "D" umod "1"... the quotient
    bit is taken to be 0 whenever the comparison is unknown. *)
Theorem division_unknown_refuted : ~ sound_binary udiv /\ ~ sound_binary umod /\ ~ sound_binary sdiv /\ ~ sound_binary smod.
Proof.
  assert (forall c a, Forall2 (fun x y => bit_eqb y (known1 x) || bit_eqb y BD = true) c a -> refines c a) as mk.
  { intros c a H. induction H; constructor; auto. destruct x, y; try discriminate; simpl; auto. }
  assert (forall op a b ca cb r cr, sound_binary op -> a <> [] -> b <> [] -> refines ca a -> refines cb b ->
    op a b = Some r -> op (known ca) (known cb) = Some (known cr) -> refines cr r) as use.
  { intros op a b ca cb r cr S Ha Hb Hca Hcb E1 E2. destruct (S a b ca cb r Ha Hb Hca Hcb E1) as (cr' & E & R).
    rewrite E in E2. injection E2 as E2. apply known_inj in E2. now subst. }
  repeat split; intros S.
  - assert (refines [true] [B0]) as R.
    { apply (use udiv [BD] [B1] [true] [true] [B0] [true] S); try discriminate; try (apply mk; repeat constructor); vm_compute; reflexivity. }
    inversion R; subst. discriminate.
  - assert (refines [false; false] [B1; B0]) as R.
    { apply (use umod [B1; B0] [B1; BD] [true; false] [true; false] [B1; B0] [false; false] S); try discriminate; try (apply mk; repeat constructor); vm_compute; reflexivity. }
    inversion R; subst. discriminate.
  - assert (refines [true] [B0]) as R.
    { apply (use sdiv [BD] [B1] [true] [true] [B0] [true] S); try discriminate; try (apply mk; repeat constructor); vm_compute; reflexivity. }
    inversion R; subst. discriminate.
  - assert (refines [false; false; false] [B1; B0; B0]) as R.
    { apply (use smod [B1; B0; B0] [B1; BD; B0] [true; false; false] [true; false; false] [B1; B0; B0] [false; false; false] S); try discriminate; try (apply mk; repeat constructor); vm_compute; reflexivity. }
    inversion R; subst. discriminate.
Qed.
Print Assumptions division_unknown_refuted.
(** No operation invents undefined bits. *)
Theorem defined_preserved :
  forall op, In op [add; sub; mul; umulh; smulh; land_v; lor_v; lxor_v; udiv; umod] -> keeps_defined op.
Proof.
  pose proof sd0 as A0. pose proof sd1 as A1. pose proof sd_or as Ao. pose proof sd_and as Aa. pose proof sd_xor as Ax.
  intros op H. do 8 (destruct H as [<-|H]; [apply binary_defined; intros a b a' b' Ha Hb;
    first [now apply RV_add|now apply RV_sub|now apply RV_mul|now apply RV_umulh|now apply RV_smulh|now apply RV_land|now apply RV_lor|now apply RV_lxor]|]).
  destruct H as [<-|[<-|[]]]; intros a b r Ha _ Hda Hdb E; unfold udiv, umod in E;
    destruct (divide a b) as [[q r']|] eqn:D; try discriminate; injection E as <-; now apply divide_defined in D.
Qed.
Print Assumptions defined_preserved.
Example ex_c15 : add [BD; B1; B0] [B0; B1; B0] = Some [BD; B0; B1] /\ refines [true; true; false] [BD; B1; B0] /\
  add (known [true; true; false]) (known [false; true; false]) = Some (known [true; false; true]).
Proof. repeat split; try (vm_compute; reflexivity). repeat constructor. Qed.

(** ** C16: structure, for values with arbitrary (also unknown) bits *)
Theorem slice_exact :
  forall (v : bits) (low high : nat),
  (slice v low high = None <-> ~ (low < high <= nbits v)%nat) /\
  (forall r, slice v low high = Some r ->
     nbits r = (high - low)%nat /\ forall i, (i < high - low)%nat -> nth_error r i = nth_error v (low + i)).
Proof.
  intros v low high. unfold nbits. split.
  - split; [|apply slice_none]. intros H [H1 H2]. rewrite slice_some in H by lia. discriminate.
  - intros r H. assert (low < high <= length v)%nat as Hr.
    { destruct (Nat.lt_ge_cases low high); [destruct (Nat.le_gt_cases high (length v)); [lia|]|]; rewrite slice_none in H by lia; discriminate. }
    rewrite slice_some in H by assumption. injection H as <-.
    split; [rewrite firstn_length, skipn_length; lia|]. intros i Hi.
    assert (forall (l : bits) n k, (k < n)%nat -> nth_error (firstn n l) k = nth_error l k) as F.
    { induction l as [|x l IH]; intros [|n] [|k] Hk; simpl; auto; try lia. apply IH. lia. }
    rewrite F by assumption. clear. revert v. induction low as [|n IH]; intros [|x v]; simpl; auto. now destruct i.
Qed.
Print Assumptions slice_exact.
Theorem concat_exact :
  forall a b : bits, nbits (concat_bits a b) = (nbits a + nbits b)%nat /\
  (forall i, nth_error (concat_bits a b) i = if (i <? nbits a)%nat then nth_error a i else nth_error b (i - nbits a)) /\
  (a <> [] -> slice (concat_bits a b) 0 (nbits a) = Some a) /\
  (b <> [] -> slice (concat_bits a b) (nbits a) (nbits a + nbits b) = Some b) /\
  create [a; b] = Some (concat_bits a b).
Proof.
  intros a b. unfold concat_bits, nbits. rewrite app_length. split; [reflexivity|]. split; [|split; [|split]].
  - intros i. destruct (Nat.ltb_spec i (length a)); [now apply nth_error_app1|now apply nth_error_app2].
  - intros Ha. assert (0 < length a)%nat by (destruct a; [congruence|simpl; lia]).
    rewrite slice_some by (rewrite app_length; lia). rewrite Nat.sub_0_r. simpl skipn.
    rewrite firstn_app, firstn_all, Nat.sub_diag. simpl. now rewrite app_nil_r.
  - intros Hb. assert (0 < length b)%nat by (destruct b; [congruence|simpl; lia]).
    rewrite slice_some by (rewrite app_length; lia). rewrite skipn_app, skipn_all, Nat.sub_diag. simpl.
    replace (length a + length b - length a)%nat with (length b) by lia. now rewrite firstn_all.
  - simpl. now rewrite app_nil_r.
Qed.
Print Assumptions concat_exact.
(** splitting a value anywhere and concatenating gives it back *)
Theorem concat_of_slices :
  forall (v lo hi : bits) (k : nat), (0 < k < nbits v)%nat ->
  slice v 0 k = Some lo -> slice v k (nbits v) = Some hi -> concat_bits lo hi = v.
Proof.
  intros v lo hi k Hk H1 H2. unfold nbits in *. rewrite slice_some in H1, H2 by lia.
  injection H1 as <-. injection H2 as <-. rewrite Nat.sub_0_r. simpl skipn. unfold concat_bits.
  rewrite (firstn_all2 (skipn k v)) by (rewrite skipn_length; lia). apply firstn_skipn.
Qed.
Print Assumptions concat_of_slices.
Theorem extend_and_truncate_exact :
  forall (a : list bool) (n : nat), a <> [] ->
  (exists r, zext (known a) n = Some (known r) /\ length r = (length a + n)%nat /\ uval r = uval a) /\
  (exists r, sext (known a) n = Some (known r) /\ length r = (length a + n)%nat /\ sval r = sval a) /\
  ((0 < n <= length a)%nat -> exists r, trunc (known a) n = Some (known r) /\ length r = n /\ uval r = uval a mod 2 ^ Z.of_nat n) /\
  (~ (0 < n <= length a)%nat -> trunc (known a) n = None).
Proof.
  intros a n Ha. split; [|split; [|split]].
  - exists (a ++ repeat false n). split; [apply zext_known|]. split; [now rewrite app_length, repeat_length|].
    rewrite uval_app, uval_zeros. lia.
  - destruct (sext_known a n Ha) as (s & H1 & H2 & H3 & _). eauto.
  - intros H. exists (firstn n a). unfold trunc. rewrite slice_known by lia. rewrite Nat.sub_0_r.
    split; [reflexivity|]. split; [rewrite firstn_length; lia|]. apply uval_firstn.
  - intros H. unfold trunc. apply slice_none. now rewrite known_length.
Qed.
Print Assumptions extend_and_truncate_exact.
Example ex_c16 : slice [B0; BD; B1; BX] 1 3 = Some [BD; B1] /\ slice [B0; B1] 1 1 = None /\ slice [B0; B1] 1 3 = None /\
  sext [B0; BD] 2 = Some [B0; BD; BD; BD].
Proof. vm_compute. repeat split. Qed.
