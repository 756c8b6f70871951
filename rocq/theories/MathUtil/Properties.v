(** Property theorems for jlm/util/Math.hpp (C09, C10). *)
From Coq Require Import ZArith Lia.
From Verif.MathUtil Require Import Model Spec Proofs.
Local Open Scope Z_scope.

(** C09 *)
Theorem log2Floor_exact :
  forall t v, 0 <= width t -> in_range t v ->
  exists r, log2Floor t v = Some r /\ is_log2_floor v r.
Proof. exact log2Floor_ok. Qed.
Print Assumptions log2Floor_exact.

(** Every value whose least upper power of two is representable in the type;
    such a power of two always exists mathematically (second theorem). *)
Theorem RoundUpToPowerOf2_exact :
  forall t v r, 2 <= width t -> in_range t v -> is_ceil_pow2 v r -> in_range t r ->
  RoundUpToPowerOf2 t v = Some r.
Proof. exact RoundUpToPowerOf2_ok. Qed.
Print Assumptions RoundUpToPowerOf2_exact.

Theorem RoundUpToPowerOf2_spec_total : forall v, exists r, is_ceil_pow2 v r.
Proof. exact ceil_pow2_exists. Qed.
Print Assumptions RoundUpToPowerOf2_spec_total.

Theorem RoundUpToMultipleOf_unsigned_exact :
  forall w v m r, 1 <= w -> let t := Ity false w in
  in_range t v -> in_range t m -> 0 < m -> is_ceil_multiple v m r -> in_range t r ->
  RoundUpToMultipleOf t v m = Some r.
Proof. exact RoundUpToMultipleOf_unsigned. Qed.
Print Assumptions RoundUpToMultipleOf_unsigned_exact.

(** Partial for signed types: value + multiple must not overflow... *)
Theorem RoundUpToMultipleOf_signed_partial :
  forall w v m r, 2 <= w -> let t := Ity true w in
  in_range t v -> in_range t m -> 0 < m -> is_ceil_multiple v m r -> v + m <= tmax t ->
  RoundUpToMultipleOf t v m = Some r.
Proof. exact RoundUpToMultipleOf_signed. Qed.
Print Assumptions RoundUpToMultipleOf_signed_partial.

(** ... and without that the intermediate sum overflows (undefined behaviour)
    although the rounded value is representable. *)
Theorem RoundUpToMultipleOf_signed_refuted :
  exists v m r, in_range int64 v /\ in_range int64 m /\ 0 < m /\
    is_ceil_multiple v m r /\ in_range int64 r /\ RoundUpToMultipleOf int64 v m = None.
Proof.
  exists 9223372036854775804, 5, 9223372036854775805.
  repeat split; try (vm_compute; discriminate).
  - exists 1844674407370955161. reflexivity.
  - intros k Hk. lia.
Qed.
Print Assumptions RoundUpToMultipleOf_signed_refuted.

Theorem BitsRequiredToRepresent_exact :
  forall t v, 1 <= width t -> in_range t v ->
  exists n, BitsRequiredToRepresent t v = Some n /\ is_bit_length (v mod 2 ^ width t) n.
Proof. exact BitsRequired_ok. Qed.
Print Assumptions BitsRequiredToRepresent_exact.

(** C10 *)
Theorem truncateAndSignExtend_exact :
  forall v k, 1 <= k <= 64 ->
  exists r, truncateAndSignExtend v k = Some r /\ is_sign_extension v k r.
Proof. exact sign_extend_ok. Qed.
Print Assumptions truncateAndSignExtend_exact.

Theorem truncateAndZeroExtend_exact :
  forall v k, 1 <= k <= 63 ->
  exists r, truncateAndZeroExtend v k = Some r /\ is_zero_extension v k r.
Proof. exact zero_extend_ok. Qed.
Print Assumptions truncateAndZeroExtend_exact.

(** keepBits = 64 returns the value itself (as int64_t). *)
Theorem truncateAndZeroExtend_64 :
  forall v, truncateAndZeroExtend v 64 = Some (convert int64 v).
Proof. exact zero_extend_64. Qed.
Print Assumptions truncateAndZeroExtend_64.

(** The assertion keepBits <= 64 admits keepBits = 0, which shifts by 64. *)
Theorem truncate_zero_bits_refuted :
  forall v, truncateAndSignExtend v 0 = None /\ truncateAndZeroExtend v 0 = None.
Proof. intros v. split; reflexivity. Qed.
Print Assumptions truncate_zero_bits_refuted.

(** The documented examples. *)
Example ex_log2 : log2Floor int64 7 = Some 2 /\ log2Floor int64 8 = Some 3 /\ log2Floor int64 (-4) = Some (-1).
Proof. repeat split. Qed.
Example ex_pow2 : RoundUpToPowerOf2 int64 9 = Some 16 /\ RoundUpToPowerOf2 int64 (-10) = Some 1
  /\ is_ceil_pow2 9 16.
Proof.
  split; [reflexivity|]. split; [reflexivity|]. apply (pow2_unique_ceil 9 3); vm_compute; intuition discriminate.
Qed.
Example ex_mult : RoundUpToMultipleOf int64 (-11) 5 = Some (-10) /\ RoundUpToMultipleOf uint64 6 5 = Some 10
  /\ is_ceil_multiple 6 5 10.
Proof. split; [reflexivity|]. split; [reflexivity|]. exact (ceil_multiple_formula 6 5 eq_refl). Qed.
Example ex_ext : truncateAndSignExtend 167 8 = Some (-89) /\ truncateAndZeroExtend 167 4 = Some 7.
Proof. split; reflexivity. Qed.
