(** Trip counts of quadratic recurrences. *)
From Coq Require Import ZArith List Bool Lia.
From stdpp Require Import tactics base list.
From Verif.ScalarEvolution Require Import Model Spec Proofs Proofs2 TripModel TripSpec TripProofs TripProofs2.
Local Open Scope Z_scope.


Lemma neg_of_mul k g : 0 < k -> k * g < 0 -> g < 0. Proof. nia. Qed.
Lemma pos_of_mul k g : 0 < k -> 0 < k * g -> 0 < g. Proof. nia. Qed.
Lemma zero_of_mul k g : 0 < k -> k * g = 0 -> g = 0. Proof. nia. Qed.
Lemma sq_le u v : 0 <= u <= v -> u * u <= v * v. Proof. nia. Qed.
Lemma sq_lt u v : 0 <= u < v -> u * u < v * v. Proof. nia. Qed.
Lemma solve_positive a b c : 0 < a < 2 ^ 22 -> 0 <= b < 2 ^ 24 -> - 2 ^ 24 < c <= 0 ->
  exists x, SolveQuadraticEquation a b c = Count x /\ 0 <= x < 2 ^ 26 /\
    0 <= a * x * x + b * x + c < 2 ^ 28 /\ (0 < x -> a * (x - 1) * (x - 1) + b * (x - 1) + c < 0).
Proof.
  intros Ha Hb Hc. unfold SolveQuadraticEquation.
  destruct (Z.ltb_spec a 0); [lia|].
  assert (Hd : b * b <= b * b - 4 * a * c < 2 ^ 52) by nia.
  rewrite (wrap64_id (b * b - 4 * a * c)) by lia. set (d := b * b - 4 * a * c) in *.
  destruct (Z.ltb_spec d 0); [nia|]. rewrite sqrt_double_exact by lia.
  pose proof (Z.sqrt_spec d ltac:(lia)) as S. cbv zeta in S. unfold Z.succ in S.
  pose proof (Z.sqrt_nonneg d) as Sn. set (sq := Z.sqrt d) in *.
  assert (Sb : b <= sq) by nia. assert (Su : sq < 2 ^ 26) by nia.
  rewrite (wrap64_id (sq * sq)) by nia. destruct (Z.ltb_spec d (sq * sq)); [lia|].
  destruct (Z.eqb_spec (2 * a) 0); [lia|]. destruct (Z.ltb_spec b 0); [lia|].
  rewrite Z.quot_div_nonneg, Z.rem_mod_nonneg by lia.
  pose proof (Z.div_mod (- b + sq) (2 * a) ltac:(lia)) as E.
  pose proof (Z.mod_pos_bound (- b + sq) (2 * a) ltac:(lia)) as B.
  set (x := (- b + sq) / (2 * a)) in *. set (r := (- b + sq) mod (2 * a)) in *.
  assert (X : 0 <= x) by (apply Z.div_pos; lia). assert (X2 : 2 * a * x <= sq) by lia.
  assert (X3 : x <= sq) by nia.
  destruct (Z.ltb_spec x 0); [lia|].
  assert (G : 4 * a * (a * x * x + b * x + c) = (2 * a * x + b) * (2 * a * x + b) - d) by (unfold d; ring).
  assert (G1 : 4 * a * (a * (x + 1) * (x + 1) + b * (x + 1) + c) =
    (2 * a * (x + 1) + b) * (2 * a * (x + 1) + b) - d) by (unfold d; ring).
  assert (X4 : 0 <= 2 * a * x) by nia.
  assert (Lo : (2 * a * x + b) * (2 * a * x + b) <= sq * sq) by (apply sq_le; lia).
  assert (Hi0 : (sq + 1) * (sq + 1) <= (2 * a * (x + 1) + b) * (2 * a * (x + 1) + b)) by (apply sq_le; lia).
  assert (Hi : d < (2 * a * (x + 1) + b) * (2 * a * (x + 1) + b)) by lia.
  assert (Up : a * (x + 1) * (x + 1) + b * (x + 1) + c <= a * x * x + b * x + c + (sq + a)).
  { assert (a * (x + 1) * (x + 1) + b * (x + 1) + c = a * x * x + b * x + c + (2 * a * x + b + a)) by ring. lia. }
  destruct (negb (negb (sq * sq =? d)) && (r =? 0)) eqn:Ex.
  - apply andb_prop in Ex as [Ex1 Ex2]. rewrite negb_involutive in Ex1.
    apply Z.eqb_eq in Ex1, Ex2. exists x. split; [done|]. split; [lia|].
    assert (Sx : sq = 2 * a * x + b) by lia.
    assert (Z0 : a * x * x + b * x + c = 0).
    { apply (zero_of_mul (4 * a)); [lia|]. rewrite G, <- Sx. lia. }
    split; [lia|]. intros Hx.
    assert (a * (x - 1) * (x - 1) + b * (x - 1) + c = a * x * x + b * x + c - (a * x + a * (x - 1) + b)) by ring.
    assert (0 < a * x) by (apply Z.mul_pos_pos; lia). assert (0 <= a * (x - 1)) by (apply Z.mul_nonneg_nonneg; lia). lia.
  - assert (Lt : (2 * a * x + b) * (2 * a * x + b) < d).
    { apply andb_false_iff in Ex. rewrite negb_involutive in Ex.
      destruct Ex as [Ex|Ex]; apply Z.eqb_neq in Ex; [lia|]. 
      assert ((2 * a * x + b) * (2 * a * x + b) < sq * sq) by (apply sq_lt; lia). lia. }
    assert (V0 : a * x * x + b * x + c < 0) by (apply (neg_of_mul (4 * a)); lia).
    assert (V1 : 0 < a * (x + 1) * (x + 1) + b * (x + 1) + c) by (apply (pos_of_mul (4 * a)); lia).
    assert (0 <= a * x * x) by (apply Z.mul_nonneg_nonneg; [apply Z.mul_nonneg_nonneg; lia|lia]).
    assert (0 <= b * x) by (apply Z.mul_nonneg_nonneg; lia).
    assert (V0' : c <= a * x * x + b * x + c) by lia.
    replace ((a * x + b) * x + c) with (a * x * x + b * x + c) by ring.
    replace ((a * (x + 1) + b) * (x + 1) + c) with (a * (x + 1) * (x + 1) + b * (x + 1) + c) by ring.
    rewrite !wrap64_id by lia.
    destruct (Z.ltb_spec (a * x * x + b * x + c) 0); [|lia].
    destruct (Z.ltb_spec (a * (x + 1) * (x + 1) + b * (x + 1) + c) 0); [lia|]. simpl.
    assert (X5 : x < 2 ^ 26 - 1).
    { assert (2 * x <= 2 * a * x) by (clear -X Ha; nia). lia. }
    exists (x + 1). split; [done|]. split; [lia|]. split; [lia|]. intros _.
    replace (x + 1 - 1) with x by ring. done.
Qed.
Lemma solve_neg a b c : a < 0 -> - 2 ^ 63 < a -> Z.abs b < 2 ^ 63 -> Z.abs c < 2 ^ 63 ->
  SolveQuadraticEquation a b c = SolveQuadraticEquation (- a) (- b) (- c).
Proof.
  intros Ha Ha2 Hb Hc. unfold SolveQuadraticEquation. destruct (Z.ltb_spec a 0); [|lia].
  destruct (Z.ltb_spec (- a) 0); [lia|]. by rewrite (wrap64_id (- a)), (wrap64_id (- b)), (wrap64_id (- c)) by lia.
Qed.

(** Twice the value of the recurrence, on integers. *)
Definition f2 (start first second i : Z) : Z := 2 * start + 2 * i * first + i * (i - 1) * second.
Lemma f2_crval start first second (i : nat) : 2 * crval [start; first; second] i = f2 start first second (Z.of_nat i).
Proof. rewrite crval_quadratic. unfold f2. ring. Qed.
Lemma tri_mono i j : 0 <= i <= j -> i * (i - 1) <= j * (j - 1).
Proof.
  intros H. destruct (Z.eq_dec i j) as [->|]; [lia|].
  assert (0 <= (j - i) * (j + i - 1)) by (apply Z.mul_nonneg_nonneg; lia). nia.
Qed.
Lemma f2_mono start first second i j : 0 <= first -> 0 <= second -> 0 <= i <= j ->
  f2 start first second i <= f2 start first second j.
Proof.
  intros H1 H2 H3. unfold f2. pose proof (tri_mono i j ltac:(lia)) as Q.
  assert (i * (i - 1) * second <= j * (j - 1) * second) by (apply Z.mul_le_mono_nonneg_r; lia).
  assert (C : i * first <= j * first) by (apply Z.mul_le_mono_nonneg_r; lia). lia.
Qed.
Lemma f2_strict start first second i j : 0 < first -> 0 <= second -> 0 <= i < j ->
  f2 start first second i < f2 start first second j.
Proof.
  intros H1 H2 H3. unfold f2. pose proof (tri_mono i j ltac:(lia)) as Q.
  assert (i * (i - 1) * second <= j * (j - 1) * second) by (apply Z.mul_le_mono_nonneg_r; lia).
  assert (C : i * first < j * first) by (apply Z.mul_lt_mono_pos_r; lia). lia.
Qed.

Lemma even_prod x : exists h, x * (x - 1) = 2 * h.
Proof.
  destruct (Z.Even_or_Odd x) as [[k ->]|[k ->]]; [exists (k * (2 * k - 1))|exists ((2 * k + 1) * k)]; ring.
Qed.

Lemma quadratic_backedge start first second bound c : small start -> small bound -> small first -> small second ->
  0 < second <= 2 * first -> start <= bound ->
  exists x, ComputeBackedgeTakenCount start [first; second] bound c =
    Count (x + if is_equals_comparison c && (f2 start first second x =? 2 * bound) then 1 else 0) /\
    0 <= x < 2 ^ 26 /\ 2 * bound <= f2 start first second x /\
    (forall i, 0 <= i < x -> f2 start first second i < 2 * bound).
Proof.
  unfold small. intros H1 H2 H3 H4 H5 H6. unfold ComputeBackedgeTakenCount.
  rewrite (wrap64_id (2 * first - second)), (wrap64_id (2 * (start - bound))) by lia.
  destruct (solve_positive second (2 * first - second) (2 * (start - bound)) ltac:(lia) ltac:(lia) ltac:(lia))
    as (x & E & X & V & L).
  rewrite E.
  assert (F : forall i, second * i * i + (2 * first - second) * i + 2 * (start - bound) = f2 start first second i - 2 * bound).
  { intros i. unfold f2. ring. }
  rewrite F in V. rewrite F in L.
  exists x. split; [|split; [done|split; [lia|]]].
  - destruct (even_prod x) as [h Hh]. 
    assert (Hh0 : 0 <= h) by nia. assert (Hh1 : h < 2 ^ 52) by nia.
    assert (Ev : start + x * first + wrapu (x * (x - 1)) / 2 * second = start + x * first + h * second).
    { rewrite Hh. rewrite wrapu_id by lia. rewrite (Z.mul_comm 2 h), Z.div_mul by lia. done. }
    rewrite Ev. assert (Fx : f2 start first second x = 2 * (start + x * first + h * second)).
    { unfold f2. rewrite Hh. ring. }
    rewrite wrap64_id by lia.
    assert (Eq : (start + x * first + h * second =? bound) = (f2 start first second x =? 2 * bound)).
    { destruct (Z.eqb_spec (start + x * first + h * second) bound), (Z.eqb_spec (f2 start first second x) (2 * bound)); lia. }
    rewrite Eq. apply (f_equal Count). destruct (_ && _); [rewrite wrapu_id; lia|lia].
  - intros i Hi. pose proof (f2_mono start first second i (x - 1) ltac:(lia) ltac:(lia) ltac:(lia)). lia.
Qed.
Lemma quadratic_backedge_neg start first second bound c : small start -> small bound -> small first -> small second ->
  second < 0 ->
  (0 < - second <= 2 * - first -> - start <= - bound ->
  ComputeBackedgeTakenCount start [first; second] bound c =
  ComputeBackedgeTakenCount (- start) [- first; - second] (- bound) c).
Proof.
  unfold small. intros H1 H2 H3 H4 H5 H6 H7. unfold ComputeBackedgeTakenCount.
  rewrite (wrap64_id (2 * first - second)), (wrap64_id (2 * (start - bound))) by lia.
  rewrite (wrap64_id (2 * - first - - second)), (wrap64_id (2 * (- start - - bound))) by lia.
  rewrite solve_neg by lia.
  replace (- (2 * first - second)) with (2 * - first - - second) by ring.
  replace (- (2 * (start - bound))) with (2 * (- start - - bound)) by ring.
  destruct (solve_positive (- second) (2 * - first - - second) (2 * (- start - - bound)) ltac:(lia) ltac:(lia) ltac:(lia))
    as (x & E & X & V & L).
  rewrite E. apply (f_equal Count).
  destruct (even_prod x) as [h Hh]. 
  assert (Hh0 : 0 <= h) by nia. assert (Hh1 : h < 2 ^ 52) by nia.
  assert (Ev : wrapu (x * (x - 1)) / 2 = h).
  { rewrite Hh. rewrite wrapu_id by lia. rewrite (Z.mul_comm 2 h), Z.div_mul by lia. done. }
  rewrite Ev.
  assert (F : - second * x * x + (2 * - first - - second) * x + 2 * (- start - - bound) =
    - 2 * (start + x * first + h * second) + 2 * bound).
  { transitivity (- (x * (x - 1)) * second - 2 * x * first - 2 * start + 2 * bound); [ring|]. rewrite Hh. ring. }
  rewrite F in V.
  rewrite (wrap64_id (start + x * first + h * second)) by lia.
  rewrite (wrap64_id (- start + x * - first + h * - second)) by lia.
  assert (Q : (start + x * first + h * second =? bound) = (- start + x * - first + h * - second =? - bound)).
  { destruct (Z.eqb_spec (start + x * first + h * second) bound), (Z.eqb_spec (- start + x * - first + h * - second) (- bound)); lia. }
  by rewrite Q.
Qed.

(** Recurrences that do not increase by less than half the second increment. *)
Lemma quadratic_predict c start first second bound :
  small start -> small bound -> small first -> small second ->
  0 < second <= 2 * first \/ 2 * first <= second < 0 ->
  match predict c start [first; second] bound with
  | Count n => trip_count (fun i => zcompare c (crval [start; first; second] i) bound) n
  | NoCount => c = Ne \/ endless (fun i => zcompare c (crval [start; first; second] i) bound)
  | Crash => False
  end.
Proof.
  intros H1 H2 H3 H4 H5.
  set (f := fun i : nat => crval [start; first; second] i).
  change (match predict c start [first; second] bound with
  | Count n => trip_count (fun i => zcompare c (f i) bound) n
  | NoCount => c = Ne \/ endless (fun i => zcompare c (f i) bound)
  | Crash => False end).
  assert (F : forall i : nat, 2 * f i = f2 start first second (Z.of_nat i)) by (intros; apply f2_crval).
  assert (F0 : f 0%nat = start) by (pose proof (F 0%nat) as E; unfold f2 in E; lia).
  assert (One : zcompare c start bound = false -> trip_count (fun i => zcompare c (f i) bound) 1).
  { intros H. apply (trip_count_intro _ 0); [done|done|lia|]. change (Z.to_nat 0) with 0%nat. by rewrite F0. }
  assert (Up : forall incl, is_equals_comparison c = incl -> 0 < second <= 2 * first -> start <= bound ->
    (forall x, zcompare c x bound = if incl then x <=? bound else x <? bound) ->
    match plus_one (ComputeBackedgeTakenCount start [first; second] bound c) with
    | Count n => trip_count (fun i => zcompare c (f i) bound) n
    | NoCount => c = Ne \/ endless (fun i => zcompare c (f i) bound)
    | Crash => False end).
  { intros incl Hc Hp Hs Hz.
    destruct (quadratic_backedge start first second bound c) as (x & E & X & V & L); try done.
    rewrite E, Hc. clear E. unfold plus_one.
    assert (P : incl = true -> f2 start first second x = 2 * bound \/ 2 * bound < f2 start first second x) by lia.
    set (q := x + if incl && (f2 start first second x =? 2 * bound) then 1 else 0).
    assert (Hq : 0 <= q <= x + 1) by (unfold q; destruct (_ && _); lia).
    assert (Hwr : wrapu (q + 1) = q + 1) by (apply wrapu_id; unfold q; destruct (_ && _); lia).
    rewrite Hwr. apply (trip_count_intro _ q); [lia|done| |].
    - intros i Hi. rewrite Hz. pose proof (F i) as Fi. unfold q in Hi. destruct incl; cbn [andb] in Hi.
      + apply Z.leb_le. destruct (Z.eqb_spec (f2 start first second x) (2 * bound)) as [Ex|Ex].
        * pose proof (f2_mono start first second (Z.of_nat i) x ltac:(lia) ltac:(lia) ltac:(lia)). lia.
        * specialize (L (Z.of_nat i) ltac:(lia)). lia.
      + apply Z.ltb_lt. specialize (L (Z.of_nat i) ltac:(lia)). lia.
    - rewrite Hz. pose proof (F (Z.to_nat q)) as Fi. rewrite Z2Nat.id in Fi by lia.
      unfold q in *. destruct incl; cbn [andb] in *.
      + apply Z.leb_gt. destruct (Z.eqb_spec (f2 start first second x) (2 * bound)) as [Ex|Ex].
        * pose proof (f2_strict start first second x (x + 1) ltac:(lia) ltac:(lia) ltac:(lia)). lia.
        * rewrite Z.add_0_r in *. lia.
      + apply Z.ltb_ge. rewrite Z.add_0_r in *. lia. }
  assert (Fneg : forall i, f2 (- start) (- first) (- second) i = - f2 start first second i).
  { intros i. unfold f2. ring. }
  assert (Down : forall incl, is_equals_comparison c = incl -> 2 * first <= second < 0 -> bound <= start ->
    (forall x, zcompare c x bound = if incl then bound <=? x else bound <? x) ->
    match plus_one (ComputeBackedgeTakenCount start [first; second] bound c) with
    | Count n => trip_count (fun i => zcompare c (f i) bound) n
    | NoCount => c = Ne \/ endless (fun i => zcompare c (f i) bound)
    | Crash => False end).
  { intros incl Hc Hp Hs Hz. unfold small in *.
    rewrite quadratic_backedge_neg by (unfold small; lia).
    destruct (quadratic_backedge (- start) (- first) (- second) (- bound) c) as (x & E & X & V & L); try (unfold small; lia).
    rewrite E, Hc, Fneg. clear E. rewrite Fneg in V.
    assert (L' : forall i, 0 <= i < x -> - f2 start first second i < 2 * - bound).
    { intros i Hi. specialize (L i Hi). by rewrite Fneg in L. }
    clear L. unfold plus_one.
    set (q := x + if incl && (- f2 start first second x =? 2 * - bound) then 1 else 0).
    assert (Hq : 0 <= q <= x + 1) by (unfold q; destruct (_ && _); lia).
    assert (Hwr : wrapu (q + 1) = q + 1) by (apply wrapu_id; unfold q; destruct (_ && _); lia).
    rewrite Hwr. apply (trip_count_intro _ q); [lia|done| |].
    - intros i Hi. rewrite Hz. pose proof (F i) as Fi. unfold q in Hi. destruct incl; cbn [andb] in Hi.
      + apply Z.leb_le. destruct (Z.eqb_spec (- f2 start first second x) (2 * - bound)) as [Ex|Ex].
        * pose proof (f2_mono (- start) (- first) (- second) (Z.of_nat i) x ltac:(lia) ltac:(lia) ltac:(lia)) as M.
          rewrite !Fneg in M. lia.
        * specialize (L' (Z.of_nat i) ltac:(lia)). lia.
      + apply Z.ltb_lt. specialize (L' (Z.of_nat i) ltac:(lia)). lia.
    - rewrite Hz. pose proof (F (Z.to_nat q)) as Fi. rewrite Z2Nat.id in Fi by lia.
      unfold q in *. destruct incl; cbn [andb] in *.
      + apply Z.leb_gt. destruct (Z.eqb_spec (- f2 start first second x) (2 * - bound)) as [Ex|Ex].
        * pose proof (f2_strict (- start) (- first) (- second) x (x + 1) ltac:(lia) ltac:(lia) ltac:(lia)) as M.
          rewrite !Fneg in M. lia.
        * rewrite Z.add_0_r in *. lia.
      + apply Z.ltb_ge. rewrite Z.add_0_r in *. lia. }
  assert (Inc : 0 < second <= 2 * first -> forall i, start <= f i).
  { intros Hp i. pose proof (F i). pose proof (f2_mono start first second 0 (Z.of_nat i) ltac:(lia) ltac:(lia) ltac:(lia)) as M.
    unfold f2 at 1 in M. lia. }
  assert (Dec : 2 * first <= second < 0 -> forall i, f i <= start).
  { intros Hp i. pose proof (F i).
    pose proof (f2_mono (- start) (- first) (- second) 0 (Z.of_nat i) ltac:(lia) ltac:(lia) ltac:(lia)) as M.
    rewrite !Fneg in M. unfold f2 at 1 in M. lia. }
  assert (SP : step_positive [first; second] = true <-> 0 < second <= 2 * first).
  { unfold step_positive. rewrite !andb_true_iff, !Z.leb_le, negb_true_iff, andb_false_iff, !Z.eqb_neq. lia. }
  assert (SN : step_negative [first; second] = true <-> 2 * first <= second < 0).
  { unfold step_negative. rewrite !andb_true_iff, !Z.leb_le, negb_true_iff, andb_false_iff, !Z.eqb_neq. lia. }
  unfold predict. cbv zeta.
  set (bk := plus_one (ComputeBackedgeTakenCount start [first; second] bound c)) in *.
  assert (NotUp : step_positive [first; second] = false -> forall i, f i <= start).
  { intros Hf. destruct H5 as [H5|H5]; [apply SP in H5; congruence|by apply Dec]. }
  assert (NotDown : step_negative [first; second] = false -> forall i, start <= f i).
  { intros Hf. destruct H5 as [H5|H5]; [by apply Inc|apply SN in H5; congruence]. }
  destruct c.
  1: destruct (Z.leb_spec bound start); [apply One; apply Z.ltb_ge; lia|].
  1: destruct (step_positive _) eqn:Es; [apply (Up false); try done; [by apply SP|lia]|].
  1: right; intros i; specialize (NotUp eq_refl i); apply Z.ltb_lt; lia.
  1: destruct (Z.ltb_spec bound start); [apply One; apply Z.leb_gt; lia|].
  1: destruct (step_positive _) eqn:Es; [apply (Up true); try done; by apply SP|].
  1: right; intros i; specialize (NotUp eq_refl i); apply Z.leb_le; lia.
  1: destruct (Z.leb_spec bound start); [apply One; apply Z.ltb_ge; lia|].
  1: destruct (step_positive _) eqn:Es; [apply (Up false); try done; [by apply SP|lia]|].
  1: right; intros i; specialize (NotUp eq_refl i); apply Z.ltb_lt; lia.
  1: destruct (Z.ltb_spec bound start); [apply One; apply Z.leb_gt; lia|].
  1: destruct (step_positive _) eqn:Es; [apply (Up true); try done; by apply SP|].
  1: right; intros i; specialize (NotUp eq_refl i); apply Z.leb_le; lia.
  1: destruct (Z.leb_spec start bound); [apply One; apply Z.ltb_ge; lia|].
  1: destruct (step_negative _) eqn:Es; [apply (Down false); try done; [by apply SN|lia]|].
  1: right; intros i; specialize (NotDown eq_refl i); apply Z.ltb_lt; lia.
  1: destruct (Z.ltb_spec start bound); [apply One; apply Z.leb_gt; lia|].
  1: destruct (step_negative _) eqn:Es; [apply (Down true); try done; by apply SN|].
  1: right; intros i; specialize (NotDown eq_refl i); apply Z.leb_le; lia.
  1: destruct (Z.leb_spec start bound); [apply One; apply Z.ltb_ge; lia|].
  1: destruct (step_negative _) eqn:Es; [apply (Down false); try done; [by apply SN|lia]|].
  1: right; intros i; specialize (NotDown eq_refl i); apply Z.ltb_lt; lia.
  1: destruct (Z.ltb_spec start bound); [apply One; apply Z.leb_gt; lia|].
  1: destruct (step_negative _) eqn:Es; [apply (Down true); try done; by apply SN|].
  1: right; intros i; specialize (NotDown eq_refl i); apply Z.leb_le; lia.
  - destruct (Z.eqb_spec start bound) as [->|]; [|by left]. apply One. simpl. by rewrite Z.eqb_refl.
  - destruct (Z.eqb_spec start bound) as [->|Hne].
    + assert (first <> 0) by lia. cbn [step_zero]. destruct (Z.eqb_spec first 0); [lia|]. cbn [andb negb].
      apply (trip_count_intro _ 1); [lia|lia| |].
      * intros i Hi. assert (i = 0%nat) as -> by lia. rewrite F0. simpl. apply Z.eqb_refl.
      * change (Z.to_nat 1) with 1%nat. pose proof (F 1%nat) as E. unfold f2 in E. simpl. apply Z.eqb_neq. lia.
    + apply One. simpl. by apply Z.eqb_neq.
Qed.
