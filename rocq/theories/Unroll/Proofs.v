From Coq Require Import ZArith List Bool Lia.
From Verif.Bits Require Import Model Spec Proofs Proofs2.
From Verif.Unroll Require Import Model Spec.
Import ListNotations.
Local Open Scope Z_scope.

Lemma is_zero_known l : is_zero (known l) = (uval l =? 0).
Proof. apply all_zero_known. Qed.

Lemma niterations_additive l r :
  well_typed l -> additive l = true -> uval (step l) <> 0 -> niterations l = Some r ->
  exists rb, r = known rb /\ length rb = width l /\
    let R := (uval (end_ l) + (if is_eqcmp (compare l) then 1 else 0) - uval (init l)) mod m l in
    2 * R < m l /\ R = uval rb * uval (step l).
Proof.
  intros (Hn & Hi & Hs & He) Ha Hst H. unfold niterations in H. cbv zeta in H. rewrite Ha in H.
  assert (exists fb, (if is_eqcmp (compare l) then bind (of_int (width l) 1) (add (known (end_ l))) else Some (known (end_ l))) = Some (known fb)
     /\ length fb = width l /\ uval fb = (uval (end_ l) + (if is_eqcmp (compare l) then 1 else 0)) mod m l) as (fb & Ef & Lf & Vf).
  { destruct (is_eqcmp (compare l)).
    - destruct (of_int_some (width l) 1 Hn) as (ob & -> & Lo & Vo).
      { right. assert (1 < 2 ^ Z.of_nat (width l)) by (apply Z.pow_gt_1; lia). lia. }
      cbn [bind]. destruct (add_ok (end_ l) ob) as (s & -> & Ls & Vs); [congruence|].
      exists s. split; [reflexivity|]. split; [congruence|]. rewrite Vs, Vo. unfold modulus, m. rewrite He.
      now rewrite Zplus_mod_idemp_r.
    - exists (end_ l). split; [reflexivity|]. split; [assumption|]. rewrite Z.add_0_r. symmetry. apply Z.mod_small.
      unfold m. rewrite <- He. apply uval_range. }
  rewrite Ef in H. cbn [bind] in H.
  destruct (sub_ok fb (init l)) as (rb & Er & Lr & Vr); [congruence|]. rewrite Er in H. cbn [bind] in H.
  assert (rb <> []) as Hne by (destruct rb; [simpl in Lr; lia|discriminate]).
  rewrite is_negative_known in H by assumption.
  destruct (Z.ltb_spec (sval rb) 0) as [|Hpos]; [discriminate|].
  destruct (divide_ok rb (step l)) as (q & rm & Hd & Lq & Lrm & Vq & Vrm); [congruence|assumption|assumption|].
  unfold umod, udiv in H. rewrite Hd in H. cbn [option_map bind fst snd] in H. rewrite is_zero_known in H.
  destruct (Z.eqb_spec (uval rm) 0) as [E0|]; [|discriminate]. cbn [negb] in H. injection H as <-.
  exists q. split; [reflexivity|]. split; [congruence|]. cbv zeta.
  assert ((uval (end_ l) + (if is_eqcmp (compare l) then 1 else 0) - uval (init l)) mod m l = uval rb) as ->.
  { rewrite Vr, Vf. unfold modulus, m. rewrite Lf. symmetry. apply Zminus_mod_idemp_l. }
  assert (modulus rb = m l) as Em by (unfold modulus, m; congruence).
  split.
  - pose proof (uval_range rb). unfold sval in Hpos. rewrite Em in *. destruct (Z.ltb_spec (2 * uval rb) (m l)); lia.
  - rewrite Vq. pose proof (Z.div_mod (uval rb) (uval (step l)) ltac:(assumption)). lia.
Qed.

(** ** the integer core *)
Lemma m_pos l : 0 < m l. Proof. apply Z.pow_pos_nonneg; lia. Qed.
Lemma iter_next l j : additive l = true -> length (init l) = width l ->
  Nat.iter j (next l) (uval (init l)) = (uval (init l) + Z.of_nat j * uval (step l)) mod m l.
Proof.
  intros Ha Hl. induction j as [|j IH].
  - simpl Nat.iter. rewrite Z.mul_0_l, Z.add_0_r. symmetry. apply Z.mod_small. unfold m. rewrite <- Hl. apply uval_range.
  - cbn [Nat.iter nat_rect]. fold (Nat.iter j (next l) (uval (init l))). rewrite IH. unfold next. rewrite Ha.
    rewrite Zplus_mod_idemp_l. f_equal. lia.
Qed.
Lemma signed_mod n x y : (0 < n)%nat -> - 2 ^ (Z.of_nat n - 1) <= y < 2 ^ (Z.of_nat n - 1) ->
  x = y mod 2 ^ Z.of_nat n -> signed n x = y.
Proof.
  intros Hn Hy ->. unfold signed.
  assert (2 ^ Z.of_nat n = 2 * 2 ^ (Z.of_nat n - 1)) as E.
  { replace (Z.of_nat n) with (1 + (Z.of_nat n - 1)) at 1 by lia. now rewrite Z.pow_add_r by lia. }
  destruct (Z.ltb_spec y 0).
  - replace (y mod 2 ^ Z.of_nat n) with (y + 2 ^ Z.of_nat n) by (apply Z.mod_unique with (q := -1); lia).
    destruct (Z.ltb_spec (2 * (y + 2 ^ Z.of_nat n)) (2 ^ Z.of_nat n)); lia.
  - rewrite Z.mod_small by lia. destruct (Z.ltb_spec (2 * y) (2 ^ Z.of_nat n)); lia.
Qed.
Lemma signed_spec n x : (0 < n)%nat -> 0 <= x < 2 ^ Z.of_nat n ->
  - 2 ^ (Z.of_nat n - 1) <= signed n x < 2 ^ (Z.of_nat n - 1) /\ exists q, x = signed n x + q * 2 ^ Z.of_nat n.
Proof.
  intros Hn Hx. unfold signed.
  assert (2 ^ Z.of_nat n = 2 * 2 ^ (Z.of_nat n - 1)) as E.
  { replace (Z.of_nat n) with (1 + (Z.of_nat n - 1)) at 1 by lia. now rewrite Z.pow_add_r by lia. }
  destruct (Z.ltb_spec (2 * x) (2 ^ Z.of_nat n)).
  - split; [lia|]. exists 0. lia.
  - split; [lia|]. exists 1. lia.
Qed.
Lemma bool_iff (a b : bool) : (a = true <-> b = true) -> a = b.
Proof. destruct a, b; intuition congruence. Qed.

(** x_j against the end value shifted down to hit after j0 = mm iterations *)
Lemma repeats_core l k : well_typed l -> counts_up l ->
  let I := uval (init l) in let E := uval (end_ l) in let st := uval (step l) in
  (E + (if is_eqcmp (compare l) then 1 else 0) - I) mod m l = k * st ->
  2 * (k * st) < m l ->
  forall mm j, 1 <= mm <= k -> 1 <= j <= mm ->
    repeats l ((E - (k - mm) * st) mod m l) ((I + j * st) mod m l) = (j <? mm).
Proof.
  intros (Hn & Hi & Hs & He) (Ha & Hst & Hrep & Hc) I E st HR H2 mm j Hmm Hj.
  pose proof (uval_range (init l)) as RI. pose proof (uval_range (end_ l)) as RE. pose proof (uval_range (step l)) as RS.
  unfold modulus in RI, RE, RS. rewrite Hi in RI. rewrite He in RE. rewrite Hs in RS. fold I in RI. fold E in RE. fold st in RS, Hst.
  fold (m l) in RI, RE, RS. pose proof (m_pos l) as Hmp.
  assert (0 < st) as Hst' by lia.
  assert (0 <= k * st - mm * st) by nia. assert (0 <= mm * st - j * st) by nia. assert (0 < j * st) by nia.
  replace ((k - mm) * st) with (k * st - mm * st) by ring.
  assert (m l = 2 * 2 ^ (Z.of_nat (width l) - 1)) as Em.
  { unfold m. replace (Z.of_nat (width l)) with (1 + (Z.of_nat (width l) - 1)) at 1 by lia. now rewrite Z.pow_add_r by lia. }
  assert (j <? mm = (j * st <? mm * st)) as ->.
  { apply bool_iff. rewrite !Z.ltb_lt. split; nia. }
  set (K := k * st) in *. set (M := mm * st) in *. set (J := j * st) in *.
  assert (Bool.eqb (if end_first l then holds (width l) (compare l) ((E - (K - M)) mod m l) ((I + J) mod m l)
      else holds (width l) (compare l) ((I + J) mod m l) ((E - (K - M)) mod m l)) true = (J <? M)) as Goal.
  2:{ unfold repeats. rewrite Hrep. exact Goal. }
  assert (forall b, Bool.eqb b true = b) as EB by (now intros []). rewrite EB. clear EB.
  cbv zeta in Hc. fold I in Hc. fold E in Hc.
  (* unsigned, strict *)
  assert (I < E -> (E - I) mod m l = K ->
          (I + J) mod m l = I + J /\ (E - (K - M)) mod m l = I + M) as Uu.
  { intros Hlt HK. rewrite Z.mod_small in HK by lia. split; rewrite Z.mod_small by lia; lia. }
  assert (I <= E < m l - 1 -> (E + 1 - I) mod m l = K ->
          (I + J) mod m l = I + J /\ (E - (K - M)) mod m l = I + M - 1) as Ue.
  { intros Hlt HK. rewrite Z.mod_small in HK by lia. split; rewrite Z.mod_small by lia; lia. }
  destruct (signed_spec (width l) I Hn RI) as (SI & qi & EI). destruct (signed_spec (width l) E Hn RE) as (SE & qe & EE).
  fold (m l) in EI, EE. set (sI := signed (width l) I) in *. set (sE := signed (width l) E) in *.
  assert (sI < sE -> (E - I) mod m l = K ->
          signed (width l) ((I + J) mod m l) = sI + J /\ signed (width l) ((E - (K - M)) mod m l) = sI + M) as Su.
  { intros Hlt HK. assert (K = sE - sI) as EK.
    { rewrite <- HK. replace (E - I) with ((sE - sI) + (qe - qi) * m l) by (rewrite EI, EE; ring).
      rewrite Z.mod_add by lia. apply Z.mod_small. lia. }
    split; apply signed_mod; try assumption; try lia; fold (m l).
    - replace (I + J) with ((sI + J) + qi * m l) by lia. now rewrite Z.mod_add by lia.
    - replace (E - (K - M)) with ((sI + M) + qe * m l) by lia. now rewrite Z.mod_add by lia. }
  assert (sI <= sE < 2 ^ (Z.of_nat (width l) - 1) - 1 -> (E + 1 - I) mod m l = K ->
          signed (width l) ((I + J) mod m l) = sI + J /\ signed (width l) ((E - (K - M)) mod m l) = sI + M - 1) as Se.
  { intros Hlt HK. assert (K = sE + 1 - sI) as EK.
    { rewrite <- HK. replace (E + 1 - I) with ((sE + 1 - sI) + (qe - qi) * m l) by (rewrite EI, EE; ring).
      rewrite Z.mod_add by lia. apply Z.mod_small. lia. }
    split; apply signed_mod; try assumption; try lia; fold (m l).
    - replace (I + J) with ((sI + J) + qi * m l) by lia. now rewrite Z.mod_add by lia.
    - replace (E - (K - M)) with ((sI + M - 1) + qe * m l) by lia. now rewrite Z.mod_add by lia. }
  rewrite ?Z.add_0_r in HR.
  destruct (compare l) eqn:C, (end_first l) eqn:F; try contradiction; cbn [is_eqcmp] in HR; rewrite ?Z.add_0_r in HR; cbn [holds];
    try (destruct (Uu Hc HR) as [-> ->]); try (destruct (Ue Hc HR) as [-> ->]);
    try (destruct (Su Hc HR) as [-> ->]); try (destruct (Se Hc HR) as [-> ->]);
    try (apply bool_iff; rewrite ?Z.ltb_lt, ?Z.leb_le; lia).
  all: assert ((I + J) mod m l = (E - (K - M)) mod m l <-> J = M) as N.
  1,3: (assert ((E - (K - M)) mod m l = (I + M) mod m l) as ->;
    [pose proof (Z.div_mod (E - I) (m l) ltac:(lia)) as D; rewrite HR in D;
     replace (E - (K - M)) with ((I + M) + ((E - I) / m l) * m l) by lia; now rewrite Z.mod_add by lia|];
    split; [|now intros ->]; intros Heq;
    assert (((I + M) - (I + J)) mod m l = 0) as Hz by (rewrite Zminus_mod, Heq, Z.sub_diag; apply Z.mod_0_l; lia);
    replace (I + M - (I + J)) with (M - J) in Hz by ring; rewrite Z.mod_small in Hz by lia; lia).
  all: apply bool_iff; rewrite Z.ltb_lt, negb_true_iff, Z.eqb_neq; lia.
Qed.

(** ** executions *)
Section Exec.
  Variable l : loop.
  Variable S : Type.
  Variable g : Z -> S -> S.

  Lemma iter_succ_r {A} (f : A -> A) n x : Nat.iter n f (f x) = Nat.iter (Datatypes.S n) f x.
  Proof. induction n as [|n IH]; [reflexivity|]. cbn [Nat.iter nat_rect] in *. f_equal. exact IH. Qed.
  Lemma iter_plus {A} (f : A -> A) a b x : Nat.iter (a + b) f x = Nat.iter a f (Nat.iter b f x).
  Proof. induction a as [|a IH]; [reflexivity|]. cbn [Nat.iter nat_rect Nat.add] in *. f_equal. exact IH. Qed.
  Lemma iter_mul {A} (f : A -> A) a b x : Nat.iter a (Nat.iter b f) x = Nat.iter (a * b) f x.
  Proof.
    induction a as [|a IH]; [reflexivity|]. cbn [Nat.mul]. rewrite iter_plus, <- IH. reflexivity.
  Qed.
  Lemma body_fst j st : fst (Nat.iter j (body l S g) st) = Nat.iter j (next l) (fst st).
  Proof. induction j as [|j IH]; [reflexivity|]. change (next l (fst (Nat.iter j (body l S g) st)) = next l (Nat.iter j (next l) (fst st))). now rewrite IH. Qed.

  Lemma dowhile_iter f e st k : (1 <= k)%nat ->
    (forall j, (1 <= j <= k)%nat -> repeats l e (fst (Nat.iter j f st)) = (j <? k)%nat) ->
    forall st', dowhile l S f e st st' <-> st' = Nat.iter k f st.
  Proof.
    revert st. induction k as [|k IH]; intros st Hk Hr st'; [lia|].
    pose proof (Hr 1%nat ltac:(lia)) as H1. cbn [Nat.iter nat_rect] in H1.
    destruct k as [|k].
    - change (1 <? 1)%nat with false in H1. split.
      + intros H. inversion H; subst; [reflexivity|]. congruence.
      + intros ->. now constructor.
    - assert (1 <? Datatypes.S (Datatypes.S k) = true)%nat as E by (apply Nat.ltb_lt; lia). rewrite E in H1.
      rewrite <- iter_succ_r. rewrite <- (IH (f st)).
      + split.
        * intros H. inversion H; subst; [congruence|assumption].
        * intros H. now apply dw_again.
      + lia.
      + intros j Hj. rewrite iter_succ_r. rewrite Hr by lia. apply bool_iff. rewrite !Nat.ltb_lt. lia.
  Qed.

  Variable k : Z.
  Hypothesis WT : well_typed l.
  Hypothesis CU : counts_up l.
  Let I := uval (init l). Let E := uval (end_ l). Let st := uval (step l).
  Hypothesis HR : (E + (if is_eqcmp (compare l) then 1 else 0) - I) mod m l = k * st.
  Hypothesis H2 : 2 * (k * st) < m l.

  Lemma E_small : E mod m l = E.
  Proof. apply Z.mod_small. unfold m, E. destruct WT as (_ & _ & _ & <-). apply uval_range. Qed.
  Lemma k_pos : 1 <= k.
  Proof.
    destruct CU as (Ha & Hst & Hrep & Hc). fold st in Hst. cbv zeta in Hc. fold I in Hc. fold E in Hc.
    destruct WT as (Hn & Hi & Hs & He).
    pose proof (uval_range (init l)) as RI. pose proof (uval_range (end_ l)) as RE. pose proof (uval_range (step l)) as RS.
    unfold modulus in RI, RE, RS. rewrite Hi in RI. rewrite He in RE. rewrite Hs in RS. fold I in RI. fold E in RE. fold st in RS.
    fold (m l) in RI, RE, RS. pose proof (m_pos l) as Hmp.
    assert (forall x, - m l < x < m l -> x <> 0 -> x mod m l <> 0) as NZ.
    { intros x Hx Hx0 Hz. apply Z.mod_divide in Hz; [|lia]. destruct Hz as [q Hq]. clear - Hx Hx0 Hq Hmp. set (mm := m l) in *. assert (q = 0 \/ q <= -1 \/ 1 <= q) as [->|[|]] by lia; nia. }
    assert (0 <= k * st) by (rewrite <- HR; apply Z.mod_pos_bound; lia).
    enough (k * st <> 0) by nia. rewrite <- HR.
    assert (signed (width l) I <> signed (width l) E -> I <> E) as SN by congruence.
    destruct (compare l) eqn:C, (end_first l); try contradiction; cbn [is_eqcmp]; apply NZ; try lia.
    all: unfold signed in Hc; fold (m l) in Hc.
    all: try (assert (m l = 2 * 2 ^ (Z.of_nat (width l) - 1)) as Em
      by (unfold m; replace (Z.of_nat (width l)) with (1 + (Z.of_nat (width l) - 1)) at 1 by lia; now rewrite Z.pow_add_r by lia)).
    all: destruct (Z.ltb_spec (2 * I) (m l)), (Z.ltb_spec (2 * E) (m l)); lia.
  Qed.
  Lemma core_nat mm j : (1 <= mm <= Z.to_nat k)%nat -> (1 <= j <= mm)%nat ->
    repeats l ((E - (k - Z.of_nat mm) * st) mod m l) (Nat.iter j (next l) I) = (j <? mm)%nat.
  Proof.
    intros Hm Hj. pose proof k_pos. destruct WT as (_ & Hi & _). destruct CU as (Ha & _).
    unfold I at 1. rewrite iter_next by assumption. fold I st.
    rewrite (repeats_core l k WT CU HR H2) by lia.
    apply bool_iff. rewrite Z.ltb_lt, Nat.ltb_lt. lia.
  Qed.
  Lemma trip_ok : trip_count l k.
  Proof.
    pose proof k_pos. split; [lia|]. split.
    - intros j Hj. pose proof (core_nat (Z.to_nat k) j) as C. rewrite Z2Nat.id, Z.sub_diag, Z.mul_0_l, Z.sub_0_r, E_small in C by lia.
      fold E I. rewrite C by lia. apply Nat.ltb_lt. lia.
    - pose proof (core_nat (Z.to_nat k) (Z.to_nat k)) as C. rewrite Z2Nat.id, Z.sub_diag, Z.mul_0_l, Z.sub_0_r, E_small in C by lia.
      fold E I. rewrite C by lia. apply Nat.ltb_ge. lia.
  Qed.
  (** executing the original from iteration c *)
  Lemma original_from c s st' : (c < Z.to_nat k)%nat ->
    original l S g (Nat.iter c (body l S g) (I, s)) st' <-> st' = Nat.iter (Z.to_nat k) (body l S g) (I, s).
  Proof.
    intros Hc. pose proof k_pos. unfold original.
    replace (Z.to_nat k) with ((Z.to_nat k - c) + c)%nat by lia. rewrite iter_plus.
    apply dowhile_iter; [lia|]. intros j Hj. rewrite <- iter_plus, body_fst. simpl fst.
    pose proof (core_nat (Z.to_nat k) (j + c)) as C. rewrite Z2Nat.id, Z.sub_diag, Z.mul_0_l, Z.sub_0_r, E_small in C by lia.
    fold E. rewrite C by lia. apply bool_iff. rewrite !Nat.ltb_lt. lia.
  Qed.
  Lemma unrolled_loop F q r s st1 : (1 <= F)%nat -> (1 <= q)%nat -> Z.to_nat k = (q * F + r)%nat ->
    dowhile l S (Nat.iter F (body l S g)) ((E - Z.of_nat r * st) mod m l) (I, s) st1
    <-> st1 = Nat.iter (q * F) (body l S g) (I, s).
  Proof.
    intros HF Hq Hk. pose proof k_pos. rewrite <- iter_mul. apply dowhile_iter; [assumption|].
    intros j Hj. rewrite iter_mul, body_fst. simpl fst.
    replace (Z.of_nat r) with (k - Z.of_nat (q * F)) by lia.
    rewrite core_nat by nia. apply bool_iff. rewrite !Nat.ltb_lt. nia.
  Qed.
End Exec.

Lemma of_int_factor n f v : 0 <= f < 2 ^ 63 -> of_int n f = Some v ->
  exists fb, v = known fb /\ length fb = n /\ uval fb = f.
Proof.
  intros Hf H.
  destruct (Nat.eq_dec n 0) as [->|Hn]; [discriminate|].
  destruct (Nat.lt_ge_cases n 64) as [H64|H64].
  - destruct (Z.lt_ge_cases f (2 ^ Z.of_nat n)) as [Hlt|Hge].
    + destruct (of_int_some n f) as (fb & He & Hl & Hv); [lia|right; lia|]. rewrite He in H. injection H as <-.
      exists fb. split; [reflexivity|]. split; [assumption|]. rewrite Hv. apply Z.mod_small. lia.
    + rewrite of_int_none in H; [discriminate|]. right. split; [assumption|]. lia.
  - destruct (of_int_some n f) as (fb & He & Hl & Hv); [lia|now left|]. rewrite He in H. injection H as <-.
    exists fb. split; [reflexivity|]. split; [assumption|]. rewrite Hv. apply Z.mod_small. split; [lia|].
    apply Z.lt_le_trans with (2 ^ 63); [lia|]. apply Z.pow_le_mono_r; lia.
Qed.
Lemma copies_id z : 1 <= z < 2 ^ 64 -> body_copies z = z.
Proof. intros H. unfold body_copies. rewrite Z.mod_small; lia. Qed.

Lemma unroll_known_ok l factor p S (g : Z -> S -> S) s st' :
  well_typed l -> counts_up l -> 2 <= factor < 2 ^ 63 -> unroll_known l factor = Some p ->
  transformed l S g factor p (uval (init l), s) st' <-> original l S g (uval (init l), s) st'.
Proof.
  intros WT CU HF H. unfold unroll_known in H.
  destruct (niterations l) as [r|] eqn:EN; [|discriminate]. cbn [bind] in H.
  destruct (niterations_additive l r WT (proj1 CU) (proj1 (proj2 CU)) EN) as (rb & -> & Lr & HR2 & HR).
  set (k := uval rb) in *.
  assert (2 * (k * uval (step l)) < m l) as H2 by (rewrite <- HR; exact HR2).
  pose proof (k_pos l k WT CU HR) as Hk.
  destruct (of_int (width l) factor) as [f|] eqn:EF; [|discriminate]. cbn [bind] in H.
  destruct (of_int_factor (width l) factor f ltac:(lia) EF) as (fb & -> & Lf & Vf).
  rewrite ule_ok in H by congruence. cbn [bind] in H. fold k in H. rewrite Vf in H.
  pose proof (original_from l S g k WT CU HR H2 0 s st' ltac:(lia)) as HO. cbn [Nat.iter nat_rect] in HO.
  rewrite HO. clear HO.
  destruct (Z.leb_spec k factor) as [Hle|Hgt]; cbn [known1 bit_eqb] in H.
  - rewrite to_uint_ok in H. fold k in H. destruct (Z.ltb_spec k (2 ^ 64)); [|lia]. cbn [bind] in H. injection H as <-.
    cbn [transformed]. rewrite copies_id by lia. reflexivity.
  - assert (rb <> []) as Hne by (destruct rb; [simpl in Lr; destruct WT; lia|discriminate]).
    destruct (divide_ok rb fb) as (q & rm & Hd & Lq & Lrm & Vq & Vrm); [congruence|assumption|lia|].
    unfold umod in H. rewrite Hd in H. cbn [option_map bind snd] in H. rewrite is_zero_known in H.
    fold k in Vq, Vrm. rewrite Vf in Vq, Vrm.
    pose proof (Z.div_mod k factor ltac:(lia)) as DM. pose proof (Z.mod_pos_bound k factor ltac:(lia)) as MB.
    assert (1 <= k / factor) as Hq1 by (apply Z.div_le_lower_bound; lia).
    set (qn := Z.to_nat (k / factor)). set (rn := Z.to_nat (k mod factor)). set (Fn := Z.to_nat factor).
    assert (Z.to_nat k = (qn * Fn + rn)%nat) as Hkn.
    { unfold qn, rn, Fn. apply Nat2Z.inj. rewrite Nat2Z.inj_add, Nat2Z.inj_mul, !Z2Nat.id by lia. lia. }
    assert (exists ne, p = Looped (known ne) (known rm) /\ uval ne = (uval (end_ l) - Z.of_nat rn * uval (step l)) mod m l) as (ne & -> & Vne).
    { destruct (Z.eqb_spec (uval rm) 0) as [E0|E0].
      - injection H as <-. exists (end_ l). split; [reflexivity|].
        replace (Z.of_nat rn) with 0 by (unfold rn; lia). rewrite Z.mul_0_l, Z.sub_0_r. symmetry. now apply E_small.
      - cbv zeta in H. rewrite (proj1 CU) in H. destruct WT as (Hn & Hi & Hs & He).
        destruct (mul_ok rm (step l)) as (t & Et & Lt & Vt); [congruence|destruct rm; [simpl in Lrm; lia|discriminate]|].
        rewrite Et in H. cbn [bind] in H. destruct (sub_ok (end_ l) t) as (e & Ee & Le & Ve); [congruence|].
        rewrite Ee in H. cbn [bind] in H. injection H as <-. exists e. split; [reflexivity|].
        rewrite Ve, Vt, Vrm. unfold modulus, m. rewrite He, Lrm, Lr. rewrite Zminus_mod_idemp_r. f_equal. f_equal. f_equal.
        unfold rn. symmetry. apply Z2Nat.id. lia. }
    cbn [transformed]. rewrite !copies_id by lia. fold Fn.
    assert (forall st1, dowhile l S (Nat.iter Fn (body l S g)) (uval ne) (uval (init l), s) st1 <->
       st1 = Nat.iter (qn * Fn) (body l S g) (uval (init l), s)) as HU.
    { intros st1. rewrite Vne. apply (unrolled_loop l S g k WT CU HR H2 Fn qn rn); unfold Fn, qn; lia. }
    assert (forall st1, st1 = Nat.iter (qn * Fn) (body l S g) (uval (init l), s) ->
      ((if uval rm =? 0 then st' = st1 else if uval rm =? 1 then st' = Nat.iter (Z.to_nat 1) (body l S g) st1
        else original l S g st1 st') <-> st' = Nat.iter (Z.to_nat k) (body l S g) (uval (init l), s))) as HE.
    { intros st1 ->. destruct (Z.eqb_spec (uval rm) 0) as [E0|E0]; [|destruct (Z.eqb_spec (uval rm) 1) as [E1|E1]].
      - assert (rn = 0%nat) as R0 by (unfold rn; lia). rewrite Hkn, R0, Nat.add_0_r. reflexivity.
      - rewrite <- iter_plus. assert (rn = 1%nat) as R1 by (unfold rn; lia). rewrite Hkn, R1.
        change (Z.to_nat 1) with 1%nat. rewrite (Nat.add_comm (qn * Fn) 1). reflexivity.
      - apply (original_from l S g k WT CU HR H2). rewrite Hkn. unfold rn. lia. }
    split.
    + intros (ne' & nr' & st1 & E1 & E2 & D & B). apply known_inj in E1, E2. subst ne' nr'.
      apply HU in D. now apply (HE st1 D).
    + intros Hst. exists ne, rm, (Nat.iter (qn * Fn) (body l S g) (uval (init l), s)).
      split; [reflexivity|]. split; [reflexivity|]. split; [now apply HU|]. now apply HE.
Qed.

(** ** unknown boundaries *)
Section Unknown.
  Variable l : loop.
  Variable S : Type.
  Variable g : Z -> S -> S.
  Variable F : Z.
  Hypothesis HF : 1 <= F < 2 ^ 63.
  Let I := uval (init l). Let E := uval (end_ l). Let st := uval (step l).
  (** linear position of the variable and exclusive bound *)
  Variables w0 B : Z.
  Hypothesis Hst : 0 < st.
  Hypothesis Hadd : additive l = true.
  Hypothesis HI : length (init l) = width l.
  Hypothesis Hord : end_first l = false.
  Hypothesis Hrep : repeat_on l = true.
  Hypothesis HwB : w0 < B.
  Hypothesis P : forall j, 0 <= Z.of_nat j -> w0 + Z.of_nat j * st < B + F * st ->
    holds (width l) (compare l) ((I + Z.of_nat j * st) mod m l) E = (w0 + Z.of_nat j * st <? B).

  Let T := Z.to_nat ((B - w0 + st - 1) / st).
  Lemma T_spec : (1 <= T)%nat /\ forall j, (w0 + Z.of_nat j * st <? B) = (j <? T)%nat.
  Proof.
    pose proof (Z.div_mod (B - w0 + st - 1) st ltac:(lia)) as D.
    pose proof (Z.mod_pos_bound (B - w0 + st - 1) st ltac:(lia)) as MB.
    set (q := (B - w0 + st - 1) / st) in *. assert (1 <= q) by nia.
    assert (Z.of_nat T = q) as HT by (unfold T; fold q; lia).
    split; [lia|]. intros j. apply bool_iff. rewrite Z.ltb_lt, Nat.ltb_lt. split; intros H0; nia.
  Qed.
  Lemma iter_val j : Nat.iter j (next l) I = (I + Z.of_nat j * st) mod m l.
  Proof. apply iter_next; assumption. Qed.
  Lemma cont_j j : w0 + Z.of_nat j * st < B + F * st -> repeats l E (Nat.iter j (next l) I) = (j <? T)%nat.
  Proof.
    intros H. unfold repeats. rewrite Hord, Hrep, iter_val, P by lia. rewrite (proj2 T_spec).
    now destruct (j <? T)%nat.
  Qed.
  Lemma T_bound j : (j <= T)%nat -> w0 + Z.of_nat j * st < B + F * st.
  Proof.
    intros H. destruct (Nat.eq_dec j 0) as [->|Hj]; [nia|].
    pose proof (proj2 T_spec (j - 1)%nat) as K. replace (j - 1 <? T)%nat with true in K by (symmetry; apply Nat.ltb_lt; lia).
    apply Z.ltb_lt in K. rewrite Nat2Z.inj_sub in K by lia. change (Z.of_nat 1) with 1 in K. 
    assert (st <= F * st) by nia. nia.
  Qed.
  Lemma orig_from c s st' : (c < T)%nat ->
    original l S g (Nat.iter c (body l S g) (I, s)) st' <-> st' = Nat.iter T (body l S g) (I, s).
  Proof.
    intros Hc. unfold original. replace T with ((T - c) + c)%nat by lia. rewrite iter_plus.
    apply dowhile_iter; [lia|]. intros j Hj. rewrite <- iter_plus, body_fst. simpl fst. fold E.
    rewrite cont_j by (apply T_bound; lia). apply bool_iff. rewrite !Nat.ltb_lt. lia.
  Qed.
  Lemma ahead_j j : (j < T)%nat -> ahead_test l F (Nat.iter j (next l) I) = (j + Z.to_nat F <? T)%nat.
  Proof.
    intros H. unfold ahead_test. rewrite Hadd, iter_val. fold st E.
    rewrite Zmult_mod_idemp_r || idtac. 
    replace ((((I + Z.of_nat j * st) mod m l) + (st * F) mod m l) mod m l) with ((I + Z.of_nat (j + Z.to_nat F) * st) mod m l).
    - rewrite P; [apply (proj2 T_spec)|lia|].
      pose proof (proj2 T_spec j) as K. replace (j <? T)%nat with true in K by (symmetry; apply Nat.ltb_lt; lia).
      apply Z.ltb_lt in K. rewrite Nat2Z.inj_add, Z2Nat.id by lia. nia.
    - rewrite <- Z.add_mod by (pose proof (m_pos l); lia). f_equal. rewrite Nat2Z.inj_add, Z2Nat.id by lia. ring.
  Qed.
  Lemma unroll_unknown_ok s st' :
    transformed_unknown l S g F (I, s) st' <-> original l S g (I, s) st'.
  Proof.
    pose proof (proj1 T_spec) as HT. pose proof (orig_from 0 s st' ltac:(lia)) as HO. cbn [Nat.iter nat_rect] in HO. rewrite HO.
    unfold transformed_unknown. rewrite copies_id by lia. set (Fn := Z.to_nat F). assert (1 <= Fn)%nat by (unfold Fn; lia).
    simpl fst. pose proof (ahead_j 0 ltac:(lia)) as A0. cbn [Nat.iter nat_rect] in A0. rewrite A0. fold Fn.
    assert (forall c, (c < T)%nat ->
      residual l S g (Nat.iter c (body l S g) (I, s)) st' <-> st' = Nat.iter T (body l S g) (I, s)) as HR.
    { intros c Hc. unfold residual. rewrite body_fst. simpl fst. rewrite iter_val, P by (try apply T_bound; lia).
      rewrite (proj2 T_spec). replace (c <? T)%nat with true by (symmetry; apply Nat.ltb_lt; lia). now apply orig_from. }
    destruct (0 + Fn <? T)%nat eqn:C.
    - apply Nat.ltb_lt in C. set (q := ((T - 1) / Fn)%nat).
      pose proof (Nat.div_mod (T - 1) Fn ltac:(lia)) as D. pose proof (Nat.mod_upper_bound (T - 1) Fn ltac:(lia)) as MB. fold q in D.
      assert (1 <= q)%nat by nia. assert (q * Fn < T)%nat as HqT by nia.
      assert (forall st1, aheadloop l S F (Nat.iter Fn (body l S g)) (I, s) st1 <-> st1 = Nat.iter (q * Fn) (body l S g) (I, s)) as HL.
      { assert (forall d c, (c + d = q)%nat -> (1 <= d)%nat -> forall st1,
          aheadloop l S F (Nat.iter Fn (body l S g)) (Nat.iter (c * Fn) (body l S g) (I, s)) st1 <-> st1 = Nat.iter (q * Fn) (body l S g) (I, s)) as G.
        { induction d as [|d IH]; intros c Hcd Hd st1; [lia|].
          assert (Nat.iter Fn (body l S g) (Nat.iter (c * Fn) (body l S g) (I, s)) = Nat.iter ((Datatypes.S c) * Fn) (body l S g) (I, s)) as ES.
          { rewrite <- iter_plus. f_equal. }
          assert (ahead_test l F (fst (Nat.iter (Datatypes.S c * Fn) (body l S g) (I, s))) = (Datatypes.S c <? q)%nat) as AT.
          { rewrite body_fst. simpl fst. rewrite ahead_j by nia. fold Fn. apply bool_iff. rewrite !Nat.ltb_lt. nia. }
          destruct d as [|d].
          - assert (Datatypes.S c = q) as Hcq by lia. rewrite Hcq, Nat.ltb_irrefl in AT. rewrite Hcq in ES. split.
            + intros K. inversion K; subst st1; [rewrite ES; reflexivity|]. rewrite ES in *. congruence.
            + intros ->. rewrite <- ES. apply al_stop. now rewrite ES.
          - assert ((Datatypes.S c <? q)%nat = true) as CQ by (apply Nat.ltb_lt; lia). rewrite CQ in AT.
            rewrite <- (IH (Datatypes.S c)) by lia. rewrite <- ES. split.
            + intros K. inversion K; subst; [rewrite ES in *; congruence|assumption].
            + intros K. apply al_again; [rewrite ES; assumption|assumption]. }
        intros st1. apply (G q 0%nat); lia. }
      split.
      + intros (st1 & K1 & K2). apply HL in K1. subst st1. now apply (HR (q * Fn)%nat HqT).
      + intros K. exists (Nat.iter (q * Fn) (body l S g) (I, s)). split; [now apply HL|]. now apply HR.
    - split.
      + intros (st1 & -> & K2). now apply (HR 0%nat).
      + intros K. exists (I, s). split; [reflexivity|]. now apply (HR 0%nat).
  Qed.
End Unknown.
