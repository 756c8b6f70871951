(** Specifications for jlm/util/Math.hpp in plain integer arithmetic. *)
From Coq Require Import ZArith.
Local Open Scope Z_scope.

(** r is floor(log2 v) for v >= 1 and -1 otherwise. *)
Definition is_log2_floor (v r : Z) : Prop :=
  (v < 1 /\ r = -1) \/ (1 <= v /\ 0 <= r /\ 2 ^ r <= v < 2 ^ (r + 1)).

(** r is the smallest power of two that is at least v. *)
Definition is_ceil_pow2 (v r : Z) : Prop :=
  (exists k, 0 <= k /\ r = 2 ^ k) /\ v <= r /\
  forall k, 0 <= k -> v <= 2 ^ k -> r <= 2 ^ k.

(** r is the smallest multiple of m that is at least v. *)
Definition is_ceil_multiple (v m r : Z) : Prop :=
  (exists k, r = k * m) /\ v <= r /\ forall k, v <= k * m -> r <= k * m.

(** n is the smallest number of bits that hold the unsigned value v. *)
Definition is_bit_length (v n : Z) : Prop :=
  0 <= n /\ v < 2 ^ n /\ forall k, 0 <= k -> v < 2 ^ k -> n <= k.

(** r is the two's complement reading of the low k bits of v. *)
Definition is_sign_extension (v k r : Z) : Prop :=
  - 2 ^ (k - 1) <= r < 2 ^ (k - 1) /\ exists q, v = r + q * 2 ^ k.
(** r is the unsigned reading of the low k bits of v. *)
Definition is_zero_extension (v k r : Z) : Prop :=
  0 <= r < 2 ^ k /\ exists q, v = r + q * 2 ^ k.
