From Coq Require Import ZArith List Bool Lia Zdiv.
From Verif.Bits Require Import Model Spec.
Import ListNotations.
Local Open Scope Z_scope.

(** ** booleans and values *)
Definition b2 (b : bool) : Z := if b then 1 else 0.
Lemma b2_range b : 0 <= b2 b <= 1. Proof. destruct b; simpl; lia. Qed.
Lemma uval_cons b l : uval (b :: l) = b2 b + 2 * uval l. Proof. reflexivity. Qed.
Lemma modulus_cons b l : modulus (b :: l) = 2 * modulus l.
Proof.
  unfold modulus. simpl length. rewrite Nat2Z.inj_succ, Z.pow_succ_r by lia. reflexivity.
Qed.
Lemma modulus_pos l : 0 < modulus l.
Proof. unfold modulus. apply Z.pow_pos_nonneg; lia. Qed.
Lemma modulus_nil : modulus [] = 1. Proof. reflexivity. Qed.
Lemma uval_range l : 0 <= uval l < modulus l.
Proof.
  induction l as [|b l IH]; [rewrite modulus_nil; simpl; lia|].
  rewrite uval_cons, modulus_cons. pose proof (b2_range b). lia.
Qed.
Lemma modulus_app a b : modulus (a ++ b) = modulus a * modulus b.
Proof. unfold modulus. rewrite app_length, Nat2Z.inj_add, Z.pow_add_r by lia. reflexivity. Qed.
Lemma uval_app a b : uval (a ++ b) = uval a + modulus a * uval b.
Proof.
  induction a as [|x a IH]; simpl app.
  - rewrite modulus_nil. change (uval []) with 0. lia.
  - rewrite !uval_cons, modulus_cons, IH. ring.
Qed.
Lemma uval_inj a b : length a = length b -> uval a = uval b -> a = b.
Proof.
  revert b. induction a as [|x a IH]; intros [|y b] Hl He; try discriminate; [reflexivity|].
  rewrite !uval_cons in He. injection Hl as Hl.
  assert (x = y /\ uval a = uval b) as [-> Hv].
  { destruct x, y; simpl b2 in He; split; try reflexivity; try lia. }
  f_equal. now apply IH.
Qed.
Lemma modulus_len a b : length a = length b -> modulus a = modulus b.
Proof. unfold modulus. now intros ->. Qed.
Lemma known_length l : length (known l) = length l.
Proof. apply map_length. Qed.
Lemma known_app a b : known (a ++ b) = known a ++ known b.
Proof. apply map_app. Qed.
Lemma known_repeat b n : known (repeat b n) = repeat (known1 b) n.
Proof. induction n; simpl; congruence. Qed.
Lemma known_firstn n l : firstn n (known l) = known (firstn n l).
Proof. apply firstn_map. Qed.
Lemma known_skipn n l : skipn n (known l) = known (skipn n l).
Proof. apply skipn_map. Qed.
Lemma known1_inj a b : known1 a = known1 b -> a = b.
Proof. destruct a, b; discriminate || reflexivity. Qed.
Lemma known_inj a b : known a = known b -> a = b.
Proof.
  revert b. induction a as [|x a IH]; intros [|y b] H; try discriminate; [reflexivity|].
  simpl in H. injection H as H1 H2. apply known1_inj in H1. f_equal; auto.
Qed.

Lemma lor_known a b : lor (known1 a) (known1 b) = known1 (a || b). Proof. now destruct a, b. Qed.
Lemma land_known a b : land (known1 a) (known1 b) = known1 (a && b). Proof. now destruct a, b. Qed.
Lemma lxor_known a b : lxor (known1 a) (known1 b) = known1 (xorb a b). Proof. now destruct a, b. Qed.
Lemma lnot_known a : lnot (known1 a) = known1 (negb a). Proof. now destruct a. Qed.
Lemma carry_known a b c : carry (known1 a) (known1 b) (known1 c) = known1 (a && b || a && c || b && c).
Proof. now destruct a, b, c. Qed.
Lemma add3_known a b c : add3 (known1 a) (known1 b) (known1 c) = known1 (xorb (xorb a b) c).
Proof. now destruct a, b, c. Qed.
Lemma full_adder a b c :
  b2 (xorb (xorb a b) c) + 2 * b2 (a && b || a && c || b && c) = b2 a + b2 b + b2 c.
Proof. now destruct a, b, c. Qed.

(** ** add, neg, sub *)
Lemma add_loop_known a b c :
  length a = length b ->
  exists s (co : bool), add_loop (known a) (known b) (known1 c) = known s /\ length s = length a /\
    uval s + modulus a * b2 co = uval a + uval b + b2 c.
Proof.
  revert b c. induction a as [|x a IH]; intros [|y b] c Hl; try discriminate.
  - exists [], c. split; [reflexivity|]. split; [reflexivity|]. rewrite modulus_nil. simpl uval. lia.
  - injection Hl as Hl. destruct (IH b (x && y || x && c || y && c) Hl) as (s & co & He & Hs & Hv).
    exists (xorb (xorb x y) c :: s), co. split.
    + simpl. rewrite carry_known, He, add3_known. reflexivity.
    + split; [simpl; congruence|]. rewrite !uval_cons, modulus_cons.
      pose proof (full_adder x y c). lia.
Qed.
Lemma same_width_true a b : length a = length b -> same_width a b = true.
Proof. intros H. unfold same_width, nbits. rewrite H. apply Nat.eqb_refl. Qed.
Lemma same_width_known a b : length a = length b -> same_width (known a) (known b) = true.
Proof. intros H. apply same_width_true. now rewrite !known_length. Qed.
Lemma same_width_false a b : length a <> length b -> same_width a b = false.
Proof. intros H. unfold same_width, nbits. now apply Nat.eqb_neq. Qed.

Lemma mod_unique_add s m co t : 0 <= s < m -> s + m * co = t -> s = t mod m.
Proof. intros Hs <-. rewrite (Z.mul_comm m co), Z.mod_add by lia. symmetry. now apply Z.mod_small. Qed.

Lemma add_ok a b :
  length a = length b ->
  exists s, add (known a) (known b) = Some (known s) /\ length s = length a /\
            uval s = (uval a + uval b) mod modulus a.
Proof.
  intros Hl. destruct (add_loop_known a b false Hl) as (s & co & He & Hs & Hv).
  exists s. unfold add. rewrite same_width_known by assumption. simpl negb. cbv iota.
  change B0 with (known1 false). rewrite He. split; [reflexivity|]. split; [exact Hs|].
  apply mod_unique_add with (co := b2 co).
  - rewrite <- (modulus_len s a Hs). apply uval_range.
  - rewrite Hv. simpl b2. lia.
Qed.

Lemma neg_loop_known a c :
  exists s (co : bool), neg_loop (known a) (known1 c) = known s /\ length s = length a /\
    uval s + modulus a * b2 co = (modulus a - 1 - uval a) + b2 c.
Proof.
  revert c. induction a as [|x a IH]; intros c.
  - exists [], c. split; [reflexivity|]. split; [reflexivity|]. rewrite modulus_nil. simpl uval. lia.
  - destruct (IH (negb x && c)) as (s & co & He & Hs & Hv).
    exists (xorb (negb x) c :: s), co. split.
    + cbn [known map neg_loop]. fold (known a).
      replace (lxor (known1 x) B1) with (known1 (negb x)) by now destruct x.
      cbv zeta.
      replace (add3 (known1 (negb x)) B0 (known1 c)) with (known1 (xorb (negb x) c)) by now destruct x, c.
      replace (carry (known1 (negb x)) B0 (known1 c)) with (known1 (negb x && c)) by now destruct x, c.
      now rewrite He.
    + split; [simpl; congruence|]. rewrite !uval_cons, modulus_cons.
      destruct x, c; simpl b2 in *; lia.
Qed.
Lemma neg_ok a :
  exists s, neg (known a) = known s /\ length s = length a /\ uval s = (- uval a) mod modulus a.
Proof.
  destruct (neg_loop_known a true) as (s & co & He & Hs & Hv).
  exists s. split; [exact He|]. split; [exact Hs|].
  apply mod_unique_add with (co := b2 co - 1).
  - rewrite <- (modulus_len s a Hs). apply uval_range.
  - simpl b2 in Hv. lia.
Qed.
Lemma sub_ok a b :
  length a = length b ->
  exists s, sub (known a) (known b) = Some (known s) /\ length s = length a /\
            uval s = (uval a - uval b) mod modulus a.
Proof.
  intros Hl. destruct (neg_ok b) as (nb & He & Hn & Hv). unfold sub. rewrite He.
  destruct (add_ok a nb) as (s & He' & Hs & Hv'); [congruence|]. exists s. split; [exact He'|].
  split; [exact Hs|]. rewrite Hv', Hv, (modulus_len b a) by congruence.
  rewrite Zplus_mod_idemp_r. f_equal.
Qed.

(** ** bitwise *)
Lemma map2_known f g a b :
  (forall x y, f (known1 x) (known1 y) = known1 (g x y)) ->
  map2 f (known a) (known b) = known (map (fun p => g (fst p) (snd p)) (combine a b)).
Proof.
  intros H. revert b. induction a as [|x a IH]; intros [|y b]; try reflexivity.
  simpl. rewrite H, IH. reflexivity.
Qed.
Definition bitwise (g : bool -> bool -> bool) (a b : list bool) : list bool :=
  map (fun p => g (fst p) (snd p)) (combine a b).
Lemma bitwise_length g a b : length a = length b -> length (bitwise g a b) = length a.
Proof. intros H. unfold bitwise. rewrite map_length, combine_length, <- H. apply Nat.min_id. Qed.
Lemma land_b2 x y a b : Z.land (b2 x + 2 * a) (b2 y + 2 * b) = b2 (x && y) + 2 * Z.land a b.
Proof.
  apply Z.bits_inj'. intros n Hn. rewrite Z.land_spec.
  destruct (Z.eq_dec n 0) as [->|Hne].
  - rewrite !Z.bit0_odd, !Z.odd_add_mul_2. now destruct x, y.
  - replace n with (Z.succ (n - 1)) by lia.
    rewrite !(Z.add_comm (b2 _)). destruct x, y; simpl b2; rewrite ?Z.add_0_r;
      rewrite ?Z.testbit_odd_succ, ?Z.testbit_even_succ by lia; now rewrite Z.land_spec.
Qed.
Lemma lor_b2 x y a b : Z.lor (b2 x + 2 * a) (b2 y + 2 * b) = b2 (x || y) + 2 * Z.lor a b.
Proof.
  apply Z.bits_inj'. intros n Hn. rewrite Z.lor_spec.
  destruct (Z.eq_dec n 0) as [->|Hne].
  - rewrite !Z.bit0_odd, !Z.odd_add_mul_2. now destruct x, y.
  - replace n with (Z.succ (n - 1)) by lia.
    rewrite !(Z.add_comm (b2 _)). destruct x, y; simpl b2; rewrite ?Z.add_0_r;
      rewrite ?Z.testbit_odd_succ, ?Z.testbit_even_succ by lia; now rewrite Z.lor_spec.
Qed.
Lemma lxor_b2 x y a b : Z.lxor (b2 x + 2 * a) (b2 y + 2 * b) = b2 (xorb x y) + 2 * Z.lxor a b.
Proof.
  apply Z.bits_inj'. intros n Hn. rewrite Z.lxor_spec.
  destruct (Z.eq_dec n 0) as [->|Hne].
  - rewrite !Z.bit0_odd, !Z.odd_add_mul_2. now destruct x, y.
  - replace n with (Z.succ (n - 1)) by lia.
    rewrite !(Z.add_comm (b2 _)). destruct x, y; simpl b2; rewrite ?Z.add_0_r;
      rewrite ?Z.testbit_odd_succ, ?Z.testbit_even_succ by lia; now rewrite Z.lxor_spec.
Qed.
Lemma bitwise_uval g G a b :
  length a = length b -> G 0 0 = 0 ->
  (forall x y a b, G (b2 x + 2 * a) (b2 y + 2 * b) = b2 (g x y) + 2 * G a b) ->
  uval (bitwise g a b) = G (uval a) (uval b).
Proof.
  intros Hl HG H. revert b Hl. induction a as [|x a IH]; intros [|y b] Hl; try discriminate; [now simpl|].
  injection Hl as Hl. unfold bitwise. simpl. fold (bitwise g a b).
  change ((if g x y then 1 else 0) + 2 * uval (bitwise g a b) = G (b2 x + 2 * uval a) (b2 y + 2 * uval b)).
  rewrite H, IH by assumption. reflexivity.
Qed.
Lemma land_v_ok a b : length a = length b ->
  exists s, land_v (known a) (known b) = Some (known s) /\ length s = length a /\ uval s = Z.land (uval a) (uval b).
Proof.
  intros Hl. exists (bitwise andb a b). unfold land_v. rewrite same_width_known by assumption. simpl negb. cbv iota.
  rewrite (map2_known _ _ _ _ land_known). split; [reflexivity|]. split; [now apply bitwise_length|].
  apply bitwise_uval; auto. intros. apply land_b2.
Qed.
Lemma lor_v_ok a b : length a = length b ->
  exists s, lor_v (known a) (known b) = Some (known s) /\ length s = length a /\ uval s = Z.lor (uval a) (uval b).
Proof.
  intros Hl. exists (bitwise orb a b). unfold lor_v. rewrite same_width_known by assumption. simpl negb. cbv iota.
  rewrite (map2_known _ _ _ _ lor_known). split; [reflexivity|]. split; [now apply bitwise_length|].
  apply bitwise_uval; auto. intros. apply lor_b2.
Qed.
Lemma lxor_v_ok a b : length a = length b ->
  exists s, lxor_v (known a) (known b) = Some (known s) /\ length s = length a /\ uval s = Z.lxor (uval a) (uval b).
Proof.
  intros Hl. exists (bitwise xorb a b). unfold lxor_v. rewrite same_width_known by assumption. simpl negb. cbv iota.
  rewrite (map2_known _ _ _ _ lxor_known). split; [reflexivity|]. split; [now apply bitwise_length|].
  apply bitwise_uval; auto. intros. apply lxor_b2.
Qed.
Lemma of_str_some (v : bits) : v <> [] -> of_str v = Some v.
Proof. destruct v; [congruence|reflexivity]. Qed.
Lemma repeat_bit_some n b : (0 < n)%nat -> repeat_bit n b = Some (repeat b n).
Proof. intros H. unfold repeat_bit. apply of_str_some. destruct n; [lia|discriminate]. Qed.
Lemma uval_ones n : uval (repeat true n) = 2 ^ Z.of_nat n - 1.
Proof.
  induction n as [|n IH]; [reflexivity|]. cbn [repeat]. rewrite uval_cons, IH, Nat2Z.inj_succ, Z.pow_succ_r by lia.
  simpl b2. lia.
Qed.
Lemma uval_zeros n : uval (repeat false n) = 0.
Proof. induction n as [|n IH]; [reflexivity|]. cbn [repeat]. rewrite uval_cons, IH. reflexivity. Qed.
Lemma lxor_ones (a : list bool) : uval (map negb a) = modulus a - 1 - uval a.
Proof.
  induction a as [|x a IH]; [reflexivity|]. cbn [map]. rewrite !uval_cons, modulus_cons, IH.
  destruct x; simpl b2; simpl negb; simpl b2; lia.
Qed.
Lemma lnot_v_ok a : a <> [] ->
  exists s, lnot_v (known a) = Some (known s) /\ length s = length a /\ uval s = modulus a - 1 - uval a.
Proof.
  intros Ha. exists (map negb a). unfold lnot_v, nbits. rewrite known_length.
  rewrite repeat_bit_some by (destruct a; [congruence|simpl; lia]).
  change B1 with (known1 true). rewrite <- known_repeat. unfold lxor_v.
  rewrite same_width_known by now rewrite repeat_length. simpl negb. cbv iota.
  rewrite (map2_known _ _ _ _ lxor_known). split; [|split; [apply map_length|apply lxor_ones]].
  do 2 f_equal. clear Ha. induction a as [|x a IH]; [reflexivity|]. simpl. rewrite IH. now destruct x.
Qed.

(** ** comparisons *)
Lemma ult_loop_known a b v :
  length a = length b ->
  ult_loop (known a) (known b) (known1 v) =
  known1 (if uval a =? uval b then v else uval a <? uval b).
Proof.
  revert b v. induction a as [|x a IH]; intros [|y b] v Hl; try discriminate; [reflexivity|].
  injection Hl as Hl. cbn [known map ult_loop]. fold (known a) (known b).
  assert (land (lor (lnot (known1 x)) (known1 y)) (lor (land (lnot (known1 x)) (known1 y)) (known1 v))
          = known1 (if eqb x y then v else negb x && y)) as -> by now destruct x, y, v.
  rewrite IH by assumption. f_equal. rewrite !uval_cons.
  destruct (Z.eqb_spec (uval a) (uval b)) as [E|E].
  - rewrite E. destruct x, y; simpl b2; simpl eqb; cbv iota; simpl negb; simpl andb.
    + now rewrite Z.eqb_refl.
    + destruct (Z.eqb_spec (1 + 2 * uval b) (0 + 2 * uval b)); [lia|]. symmetry. apply Z.ltb_ge. lia.
    + destruct (Z.eqb_spec (0 + 2 * uval b) (1 + 2 * uval b)); [lia|]. symmetry. apply Z.ltb_lt. lia.
    + now rewrite Z.eqb_refl.
  - pose proof (b2_range x). pose proof (b2_range y).
    destruct (Z.eqb_spec (b2 x + 2 * uval a) (b2 y + 2 * uval b)); [lia|].
    destruct (Z.ltb_spec (uval a) (uval b)); symmetry; [apply Z.ltb_lt|apply Z.ltb_ge]; lia.
Qed.
Lemma ult_ok a b :
  length a = length b -> a <> [] -> ult (known a) (known b) = Some (known1 (uval a <? uval b)).
Proof.
  intros Hl Ha. unfold ult. rewrite same_width_known by assumption. simpl negb. cbv iota.
  destruct a as [|x a]; [congruence|]. destruct b as [|y b]; [discriminate|]. injection Hl as Hl.
  cbn [known map]. fold (known a) (known b). rewrite lnot_known, land_known, ult_loop_known by assumption.
  do 2 f_equal. rewrite !uval_cons.
  destruct (Z.eqb_spec (uval a) (uval b)) as [E|E].
  - rewrite E. destruct x, y; simpl b2; simpl negb; simpl andb; symmetry;
      first [apply Z.ltb_ge; lia|apply Z.ltb_lt; lia].
  - pose proof (b2_range x). pose proof (b2_range y).
    destruct (Z.ltb_spec (uval a) (uval b)); symmetry; [apply Z.ltb_lt|apply Z.ltb_ge]; lia.
Qed.
Lemma ule_loop_known a b v :
  length a = length b ->
  ule_loop (known a) (known b) (known1 v) =
  known1 (if uval a =? uval b then v else uval a <? uval b).
Proof.
  revert b v. induction a as [|x a IH]; intros [|y b] v Hl; try discriminate; [reflexivity|].
  injection Hl as Hl. cbn [known map ule_loop]. fold (known a) (known b).
  assert (land (land (lor (lnot (known1 x)) (known1 y)) (lor (lnot (known1 x)) (known1 v))) (lor (known1 v) (known1 y))
          = known1 (if eqb x y then v else negb x && y)) as -> by now destruct x, y, v.
  rewrite IH by assumption. f_equal. rewrite !uval_cons.
  destruct (Z.eqb_spec (uval a) (uval b)) as [E|E].
  - rewrite E. destruct x, y; simpl b2; simpl eqb; cbv iota; simpl negb; simpl andb.
    + now rewrite Z.eqb_refl.
    + destruct (Z.eqb_spec (1 + 2 * uval b) (0 + 2 * uval b)); [lia|]. symmetry. apply Z.ltb_ge. lia.
    + destruct (Z.eqb_spec (0 + 2 * uval b) (1 + 2 * uval b)); [lia|]. symmetry. apply Z.ltb_lt. lia.
    + now rewrite Z.eqb_refl.
  - pose proof (b2_range x). pose proof (b2_range y).
    destruct (Z.eqb_spec (b2 x + 2 * uval a) (b2 y + 2 * uval b)); [lia|].
    destruct (Z.ltb_spec (uval a) (uval b)); symmetry; [apply Z.ltb_lt|apply Z.ltb_ge]; lia.
Qed.
Lemma ule_ok a b : length a = length b -> ule (known a) (known b) = Some (known1 (uval a <=? uval b)).
Proof.
  intros Hl. unfold ule. rewrite same_width_known by assumption. simpl negb. cbv iota.
  change B1 with (known1 true). rewrite ule_loop_known by assumption. do 2 f_equal.
  destruct (Z.eqb_spec (uval a) (uval b)) as [E|E].
  - rewrite E. symmetry. apply Z.leb_refl.
  - destruct (Z.ltb_spec (uval a) (uval b)); symmetry; [apply Z.leb_le|apply Z.leb_gt]; lia.
Qed.
Lemma ne_loop_known a b v :
  length a = length b -> ne_loop (known a) (known b) (known1 v) = known1 (v || negb (uval a =? uval b)).
Proof.
  revert b v. induction a as [|x a IH]; intros [|y b] v Hl; try discriminate; [now destruct v|].
  injection Hl as Hl. cbn [known map ne_loop]. fold (known a) (known b).
  rewrite lxor_known, lor_known, IH by assumption. f_equal. rewrite !uval_cons.
  destruct (Z.eqb_spec (uval a) (uval b)) as [E|E].
  - rewrite E. assert ((b2 x + 2 * uval b =? b2 y + 2 * uval b) = eqb x y) as ->.
    { destruct x, y; cbn [b2 eqb]; first [apply Z.eqb_eq; lia | apply Z.eqb_neq; lia]. }
    now destruct v, x, y.
  - pose proof (b2_range x). pose proof (b2_range y).
    destruct (Z.eqb_spec (b2 x + 2 * uval a) (b2 y + 2 * uval b)); [lia|]. destruct v, (xorb x y); reflexivity.
Qed.
Lemma ne_ok a b : length a = length b -> ne (known a) (known b) = Some (known1 (negb (uval a =? uval b))).
Proof.
  intros Hl. unfold ne. rewrite same_width_known by assumption. simpl negb. cbv iota.
  change B0 with (known1 false). now rewrite ne_loop_known.
Qed.

(** sign bit *)
Lemma last_known (l : list bool) : l <> [] -> last (known l) BX = known1 (last l false).
Proof.
  induction l as [|x l IH]; [congruence|]. intros _. destruct l as [|y l]; [reflexivity|].
  cbn [known map last] in *. apply IH. discriminate.
Qed.
Lemma sign_uval l : l <> [] -> last l false = negb (2 * uval l <? modulus l).
Proof.
  intros Hl. rewrite (app_removelast_last false Hl) at 2 3.
  rewrite uval_app, modulus_app. set (r := removelast l). set (s := last l false).
  pose proof (uval_range r). rewrite uval_cons, modulus_cons, modulus_nil. simpl (uval []).
  destruct s; cbn [b2]; symmetry.
  - apply negb_true_iff, Z.ltb_ge. lia.
  - apply negb_false_iff, Z.ltb_lt. lia.
Qed.
Lemma sign_known l : l <> [] -> sign (known l) = known1 (negb (2 * uval l <? modulus l)).
Proof. intros Hl. unfold sign. rewrite last_known by assumption. now rewrite sign_uval. Qed.
Lemma flip_known l : l <> [] ->
  exists f, flip_sign (known l) = known f /\ length f = length l /\ 2 * uval f = 2 * sval l + modulus l.
Proof.
  induction l as [|x l IH]; [congruence|]. intros _. destruct l as [|y l].
  - exists [negb x]. split; [now destruct x|]. split; [reflexivity|]. now destruct x.
  - destruct IH as (f & He & Hf & Hv); [discriminate|]. exists (x :: f).
    split; [cbn [known map flip_sign] in *; now rewrite He|]. split; [simpl in *; congruence|].
    unfold sval in *. rewrite !uval_cons, !modulus_cons in *. pose proof (b2_range x). pose proof (b2_range y).
    pose proof (uval_range l).
    destruct (Z.ltb_spec (2 * (b2 y + 2 * uval l)) (2 * modulus l));
      destruct (Z.ltb_spec (2 * (b2 x + 2 * (b2 y + 2 * uval l))) (2 * (2 * modulus l))); lia.
Qed.
Lemma sval_range l : l <> [] -> - modulus l <= 2 * sval l < modulus l.
Proof.
  intros Hl. unfold sval. pose proof (uval_range l). destruct (Z.ltb_spec (2 * uval l) (modulus l)); lia.
Qed.
Lemma sval_mod l : sval l mod modulus l = uval l.
Proof.
  unfold sval. pose proof (uval_range l). destruct (Z.ltb_spec (2 * uval l) (modulus l)).
  - now apply Z.mod_small.
  - replace (uval l - modulus l) with (uval l + (-1) * modulus l) by ring.
    rewrite Z.mod_add by lia. now apply Z.mod_small.
Qed.
Lemma slt_ok a b : length a = length b -> a <> [] -> slt (known a) (known b) = Some (known1 (sval a <? sval b)).
Proof.
  intros Hl Ha. assert (b <> []) as Hb by (destruct a, b; try discriminate; congruence).
  destruct (flip_known a Ha) as (fa & Ea & La & Va). destruct (flip_known b Hb) as (fb & Eb & Lb & Vb).
  unfold slt. rewrite Ea, Eb, ult_ok.
  - do 2 f_equal. rewrite (modulus_len a b Hl) in Va.
    destruct (Z.ltb_spec (sval a) (sval b)); [apply Z.ltb_lt|apply Z.ltb_ge]; lia.
  - congruence.
  - destruct fa; [destruct a; [congruence|discriminate]|discriminate].
Qed.
Lemma sle_ok a b : length a = length b -> a <> [] -> sle (known a) (known b) = Some (known1 (sval a <=? sval b)).
Proof.
  intros Hl Ha. assert (b <> []) as Hb by (destruct a, b; try discriminate; congruence).
  destruct (flip_known a Ha) as (fa & Ea & La & Va). destruct (flip_known b Hb) as (fb & Eb & Lb & Vb).
  unfold sle. rewrite Ea, Eb, ule_ok by congruence.
  do 2 f_equal. rewrite (modulus_len a b Hl) in Va.
  destruct (Z.leb_spec (sval a) (sval b)); [apply Z.leb_le|apply Z.leb_gt]; lia.
Qed.

(** ** slices, extensions, shifts *)
Lemma uval_firstn k l : uval (firstn k l) = uval l mod 2 ^ Z.of_nat k.
Proof.
  destruct (Nat.le_ge_cases (length l) k) as [H|H].
  - rewrite firstn_all2 by assumption. symmetry. apply Z.mod_small. pose proof (uval_range l) as [H1 H2].
    split; [exact H1|]. unfold modulus in H2. eapply Z.lt_le_trans; [exact H2|]. apply Z.pow_le_mono_r; lia.
  - rewrite <- (firstn_skipn k l) at 2. rewrite uval_app.
    assert (modulus (firstn k l) = 2 ^ Z.of_nat k) as E by (unfold modulus; rewrite firstn_length_le; auto).
    rewrite E, Z.mul_comm, Z.mod_add by (apply Z.pow_nonzero; lia).
    symmetry. apply Z.mod_small. rewrite <- E. apply uval_range.
Qed.
Lemma uval_skipn k l : uval (skipn k l) = uval l / 2 ^ Z.of_nat k.
Proof.
  destruct (Nat.le_ge_cases (length l) k) as [H|H].
  - rewrite skipn_all2 by assumption. symmetry. apply Z.div_small. pose proof (uval_range l) as [H1 H2].
    split; [exact H1|]. unfold modulus in H2. eapply Z.lt_le_trans; [exact H2|]. apply Z.pow_le_mono_r; lia.
  - rewrite <- (firstn_skipn k l) at 2. rewrite uval_app.
    assert (modulus (firstn k l) = 2 ^ Z.of_nat k) as E by (unfold modulus; rewrite firstn_length_le; auto).
    rewrite E, Z.mul_comm, Z.div_add by (apply Z.pow_nonzero; lia).
    rewrite Z.div_small; [reflexivity|]. rewrite <- E. apply uval_range.
Qed.
Lemma slice_some (v : bits) low high :
  (low < high <= length v)%nat -> slice v low high = Some (firstn (high - low) (skipn low v)).
Proof.
  intros H. unfold slice, nbits.
  replace (high <=? low)%nat with false by (symmetry; apply Nat.leb_gt; lia).
  replace (length v <? high)%nat with false by (symmetry; apply Nat.ltb_ge; lia). simpl.
  apply of_str_some. intros E. apply (f_equal (@length _)) in E.
  rewrite firstn_length, skipn_length in E. simpl in E. lia.
Qed.
Lemma slice_none (v : bits) low high :
  ~ (low < high <= length v)%nat -> slice v low high = None.
Proof.
  intros H. unfold slice, nbits. destruct (Nat.leb_spec high low); [reflexivity|].
  destruct (Nat.ltb_spec (length v) high); [reflexivity|]. lia.
Qed.
Lemma slice_known a low high : (low < high <= length a)%nat ->
  slice (known a) low high = Some (known (firstn (high - low) (skipn low a))).
Proof.
  intros H. rewrite slice_some by now rewrite known_length. now rewrite known_skipn, known_firstn.
Qed.
Lemma push_bits_zero n : push_bits n 0 = repeat B0 n.
Proof. induction n as [|n IH]; [reflexivity|]. cbn [push_bits repeat]. rewrite Z.shiftr_0_l, IH. reflexivity. Qed.
Lemma of_int_zero n : (0 < n)%nat -> of_int n 0 = Some (repeat B0 n).
Proof.
  intros H. unfold of_int. destruct (Nat.eqb_spec n 0); [lia|]. rewrite Z.shiftr_0_l. simpl.
  rewrite andb_false_r. simpl. now rewrite push_bits_zero.
Qed.
Lemma zext_some (v : bits) n : zext v n = Some (v ++ repeat B0 n).
Proof.
  unfold zext. destruct (Nat.eqb_spec n 0) as [->|H]; [now rewrite app_nil_r|].
  now rewrite of_int_zero by lia.
Qed.
Lemma sext_some (v : bits) n : sext v n = Some (v ++ repeat (sign v) n).
Proof.
  unfold sext. destruct (Nat.eqb_spec n 0) as [->|H]; [now rewrite app_nil_r|].
  now rewrite repeat_bit_some by lia.
Qed.
Lemma zext_known a n : zext (known a) n = Some (known (a ++ repeat false n)).
Proof. rewrite zext_some, known_app, known_repeat. reflexivity. Qed.
Lemma sext_known a n : a <> [] ->
  exists s, sext (known a) n = Some (known s) /\ length s = (length a + n)%nat /\ sval s = sval a /\
            uval s = sval a mod modulus s.
Proof.
  intros Ha. set (b := negb (2 * uval a <? modulus a)).
  exists (a ++ repeat b n). rewrite sext_some, known_app, known_repeat, sign_known by assumption.
  split; [reflexivity|]. split; [now rewrite app_length, repeat_length|].
  assert (sval (a ++ repeat b n) = sval a) as E.
  { assert (modulus (repeat b n) = 2 ^ Z.of_nat n) as Hmr by (unfold modulus; now rewrite repeat_length).
    unfold sval. rewrite uval_app, modulus_app, Hmr.
    pose proof (uval_range a) as Hr. pose proof (modulus_pos a). 
    assert (1 <= 2 ^ Z.of_nat n) as Hp by (assert (0 < 2 ^ Z.of_nat n) by (apply Z.pow_pos_nonneg; lia); lia).
    unfold b. destruct (Z.ltb_spec (2 * uval a) (modulus a)) as [H1|H1]; simpl negb.
    - rewrite uval_zeros. destruct (Z.ltb_spec (2 * (uval a + modulus a * 0)) (modulus a * 2 ^ Z.of_nat n)); nia.
    - rewrite uval_ones.
      destruct (Z.ltb_spec (2 * (uval a + modulus a * (2 ^ Z.of_nat n - 1))) (modulus a * 2 ^ Z.of_nat n)); nia. }
  split; [exact E|]. rewrite <- E. symmetry. apply sval_mod.
Qed.
Lemma known_nonempty (a : list bool) : a <> [] -> known a <> [].
Proof. destruct a; [congruence|discriminate]. Qed.
Lemma skipn_nonempty {A} n (l : list A) : (n < length l)%nat -> skipn n l <> [].
Proof. intros H E. apply (f_equal (@length _)) in E. rewrite skipn_length in E. simpl in E. lia. Qed.

(** shifts on arbitrary (also unknown) bits *)
Lemma shr_some (v : bits) s : v <> [] ->
  shr v s = Some (skipn s v ++ repeat B0 (Nat.min s (length v))).
Proof.
  intros Hv. assert (0 < length v)%nat by (destruct v; [congruence|simpl; lia]). unfold shr, nbits.
  destruct (Nat.leb_spec (length v) s).
  - rewrite repeat_bit_some by assumption. rewrite skipn_all2 by assumption. rewrite Nat.min_r by assumption. reflexivity.
  - rewrite of_str_some by now apply skipn_nonempty. rewrite zext_some, Nat.min_l by lia. reflexivity.
Qed.
Lemma last_skipn {A} n (l : list A) d : (n < length l)%nat -> last (skipn n l) d = last l d.
Proof.
  revert l. induction n as [|n IH]; intros l H; [reflexivity|]. destruct l as [|x l]; [simpl in H; lia|].
  simpl skipn. simpl in H. rewrite IH by lia. destruct l; [simpl in H; lia|reflexivity].
Qed.
Lemma ashr_some (v : bits) s : v <> [] ->
  ashr v s = Some (skipn s v ++ repeat (sign v) (Nat.min s (length v))).
Proof.
  intros Hv. assert (0 < length v)%nat by (destruct v; [congruence|simpl; lia]). unfold ashr, nbits.
  destruct (Nat.leb_spec (length v) s).
  - rewrite repeat_bit_some by assumption. rewrite skipn_all2 by assumption. rewrite Nat.min_r by assumption. reflexivity.
  - rewrite of_str_some by now apply skipn_nonempty. rewrite sext_some, Nat.min_l by lia.
    unfold sign. now rewrite last_skipn.
Qed.
Lemma shl_some (v : bits) s : v <> [] ->
  shl v s = Some (repeat B0 (Nat.min s (length v)) ++ firstn (length v - s) v).
Proof.
  intros Hv. assert (0 < length v)%nat by (destruct v; [congruence|simpl; lia]). unfold shl, nbits.
  destruct (Nat.eqb_spec s 0) as [->|Hs].
  - rewrite Nat.sub_0_r, firstn_all. reflexivity.
  - destruct (Nat.leb_spec (length v) s).
    + rewrite repeat_bit_some by assumption. replace (length v - s)%nat with 0%nat by lia.
      rewrite Nat.min_r by assumption. simpl. now rewrite app_nil_r.
    + rewrite repeat_bit_some by lia. rewrite slice_some by lia. simpl skipn.
      rewrite Nat.min_l, Nat.sub_0_r by lia. reflexivity.
Qed.
Lemma shr_ok a s : a <> [] ->
  exists r, shr (known a) s = Some (known r) /\ length r = length a /\ uval r = uval a / 2 ^ Z.of_nat s.
Proof.
  intros Ha. exists (skipn s a ++ repeat false (Nat.min s (length a))).
  rewrite shr_some by now apply known_nonempty. rewrite known_length, known_app, known_repeat, known_skipn.
  split; [reflexivity|]. split; [rewrite app_length, skipn_length, repeat_length; lia|].
  rewrite uval_app, uval_zeros, uval_skipn. lia.
Qed.
Lemma shl_ok a s : a <> [] ->
  exists r, shl (known a) s = Some (known r) /\ length r = length a /\ uval r = (uval a * 2 ^ Z.of_nat s) mod modulus a.
Proof.
  intros Ha. exists (repeat false (Nat.min s (length a)) ++ firstn (length a - s) a).
  rewrite shl_some by now apply known_nonempty. rewrite known_length, known_app, known_repeat, known_firstn.
  split; [reflexivity|]. split; [rewrite app_length, firstn_length, repeat_length; lia|].
  rewrite uval_app, uval_zeros, uval_firstn. unfold modulus. rewrite repeat_length.
  destruct (Nat.le_ge_cases s (length a)) as [H|H].
  - rewrite Nat.min_l by assumption. rewrite Nat2Z.inj_sub by assumption.
    replace (Z.of_nat (length a)) with (Z.of_nat s + (Z.of_nat (length a) - Z.of_nat s)) at 2 by lia.
    rewrite Z.pow_add_r, (Z.mul_comm (uval a)), Zmult_mod_distr_l by lia. reflexivity.
  - rewrite Nat.min_r by assumption. replace (length a - s)%nat with 0%nat by lia.
    rewrite Z.pow_0_r, Z.mod_1_r.
    replace (Z.of_nat s) with (Z.of_nat (length a) + Z.of_nat (s - length a)) by lia.
    rewrite Z.pow_add_r by lia. set (m := 2 ^ Z.of_nat (length a)).
    replace (uval a * (m * 2 ^ Z.of_nat (s - length a))) with ((uval a * 2 ^ Z.of_nat (s - length a)) * m) by ring.
    rewrite Z.mod_mul; [lia|]. apply Z.pow_nonzero; lia.
Qed.
Lemma ashr_ok a s : a <> [] ->
  exists r, ashr (known a) s = Some (known r) /\ length r = length a /\ sval r = sval a / 2 ^ Z.of_nat s.
Proof.
  intros Ha. set (b := negb (2 * uval a <? modulus a)).
  exists (skipn s a ++ repeat b (Nat.min s (length a))).
  rewrite ashr_some by now apply known_nonempty.
  rewrite known_length, known_app, known_repeat, known_skipn, sign_known by assumption.
  split; [reflexivity|]. split; [rewrite app_length, skipn_length, repeat_length; lia|].
  set (k := Nat.min s (length a)).
  assert (modulus (skipn s a ++ repeat b k) = modulus a) as Hm.
  { apply modulus_len. unfold k. rewrite app_length, skipn_length, repeat_length. lia. }
  assert (0 < 2 ^ Z.of_nat s) as Hps by (apply Z.pow_pos_nonneg; lia).
  assert (0 < 2 ^ Z.of_nat k) as Hpk by (apply Z.pow_pos_nonneg; lia).
  pose proof (uval_range a) as Hr.
  unfold sval. rewrite Hm, uval_app, uval_skipn. unfold b.
  assert (modulus (skipn s a) * 2 ^ Z.of_nat k = modulus a) as Hmm.
  { rewrite <- Hm, modulus_app. f_equal. unfold modulus. now rewrite repeat_length. }
  destruct (Z.ltb_spec (2 * uval a) (modulus a)) as [H1|H1]; simpl negb.
  - rewrite uval_zeros. rewrite Z.mul_0_r, Z.add_0_r.
    destruct (Z.ltb_spec (2 * (uval a / 2 ^ Z.of_nat s)) (modulus a)) as [H2|H2]; [reflexivity|].
    exfalso. assert (uval a / 2 ^ Z.of_nat s <= uval a) by (apply Z.div_le_upper_bound; nia). lia.
  - rewrite uval_ones. rewrite Z.mul_sub_distr_l, Hmm, Z.mul_1_r.
    assert ((uval a - modulus a) / 2 ^ Z.of_nat s = uval a / 2 ^ Z.of_nat s - modulus (skipn s a)) as Hdiv.
    { destruct (Nat.le_ge_cases s (length a)) as [H|H].
      - assert (modulus a = modulus (skipn s a) * 2 ^ Z.of_nat s) as ->.
        { unfold modulus. rewrite skipn_length, <- Z.pow_add_r by lia. f_equal. lia. }
        rewrite <- Z.add_opp_r, <- Z.mul_opp_l, Z.div_add by lia. lia.
      - rewrite skipn_all2 by assumption. rewrite modulus_nil.
        assert (modulus a <= 2 ^ Z.of_nat s) by (unfold modulus; apply Z.pow_le_mono_r; lia).
        rewrite (Z.div_small (uval a)) by lia.
        symmetry. apply (Zdiv_unique _ _ _ (uval a - modulus a + 2 ^ Z.of_nat s)); lia. }
    rewrite Hdiv.
    assert (0 <= uval a / 2 ^ Z.of_nat s) by (apply Z.div_pos; lia).
    assert (2 * modulus (skipn s a) <= modulus a + 2 * (uval a / 2 ^ Z.of_nat s)) as Hb.
    { destruct (Nat.eq_dec s 0) as [->|Hs0].
      - simpl skipn. simpl Z.pow. rewrite Z.div_1_r. lia.
      - assert (1 <= k)%nat. { unfold k. destruct a; [congruence|]. simpl length. lia. }
        assert (2 <= 2 ^ Z.of_nat k). { change 2 with (2 ^ 1) at 1. apply Z.pow_le_mono_r; lia. }
        pose proof (modulus_pos (skipn s a)). nia. }
    match goal with |- context [?p <? ?q] => destruct (Z.ltb_spec p q) as [H2|H2] end; lia.
Qed.

(** ** division *)
Lemma shift_in_known (x : bool) r : r <> [] ->
  exists r1, (match shl (known r) 1 with Some s => Some (set0 (known1 x) s) | None => None end) = Some (known r1) /\
    length r1 = length r /\ uval r1 = (b2 x + 2 * uval r) mod modulus r.
Proof.
  intros Hr. exists (x :: firstn (length r - 1) r).
  rewrite shl_some by now apply known_nonempty. rewrite known_length.
  destruct r as [|y r]; [congruence|]. simpl length.
  replace (Nat.min 1 (S (length r))) with 1%nat by lia. replace (S (length r) - 1)%nat with (length r) by lia.
  cbn [repeat app set0]. split; [now rewrite known_firstn|].
  split; [simpl length; rewrite firstn_length; simpl length; lia|].
  rewrite uval_cons, uval_firstn. set (v := uval (y :: r)). unfold modulus. simpl length.
  rewrite Nat2Z.inj_succ, Z.pow_succ_r by lia. set (m := 2 ^ Z.of_nat (length r)).
  assert (0 < m) by (apply Z.pow_pos_nonneg; lia).
  apply Z.mod_unique with (q := v / m); [left|].
  - pose proof (Z.mod_pos_bound v m ltac:(lia)). pose proof (b2_range x). lia.
  - pose proof (Z.div_mod v m ltac:(lia)). nia.
Qed.

Lemma udiv_loop_known (d dv q r : list bool) :
  length dv = length r -> r <> [] -> 0 < uval dv -> uval r < uval dv ->
  uval r * 2 ^ Z.of_nat (length d) + uval (rev d) < modulus r ->
  exists q1 r1, udiv_loop (known d) (known dv) (known q) (known r) = Some (known (q1 ++ q), known r1) /\
    length q1 = length d /\ length r1 = length r /\
    uval q1 = (uval r * 2 ^ Z.of_nat (length d) + uval (rev d)) / uval dv /\
    uval r1 = (uval r * 2 ^ Z.of_nat (length d) + uval (rev d)) mod uval dv.
Proof.
  revert q r. induction d as [|x d IH]; intros q r Hl Hr Hpos Hlt Htot.
  - exists [], r. split; [reflexivity|]. split; [reflexivity|]. split; [reflexivity|].
    simpl rev. simpl (uval []). simpl length. rewrite Z.pow_0_r, Z.mul_1_r, Z.add_0_r.
    pose proof (uval_range r). split; symmetry; [apply Z.div_small|apply Z.mod_small]; lia.
  - cbn [known map udiv_loop]. fold (known d).
    destruct (shift_in_known x r Hr) as (r1 & He & Hl1 & Hv1).
    destruct (shl (known r) 1) as [s|]; [|discriminate]. injection He as He. cbv zeta. rewrite He.
    assert (r1 <> []) as Hr1 by (destruct r1; [destruct r; [congruence|discriminate]|discriminate]).
    (* the total *)
    set (T := uval r * 2 ^ Z.of_nat (length (x :: d)) + uval (rev (x :: d))) in *.
    assert (T = (2 * uval r + b2 x) * 2 ^ Z.of_nat (length d) + uval (rev d)) as HT.
    { unfold T. simpl length. simpl rev. rewrite uval_app. unfold modulus. rewrite rev_length.
      rewrite Nat2Z.inj_succ, Z.pow_succ_r by lia. rewrite uval_cons. simpl (uval []). ring. }
    assert (0 < 2 ^ Z.of_nat (length d)) as Hp by (apply Z.pow_pos_nonneg; lia).
    assert (0 <= uval (rev d) < 2 ^ Z.of_nat (length d)) as Hd.
    { pose proof (uval_range (rev d)) as H. unfold modulus in H. now rewrite rev_length in H. }
    pose proof (uval_range r) as Hur. pose proof (b2_range x) as Hb.
    assert (uval r1 = 2 * uval r + b2 x) as Hv1'.
    { rewrite Hv1, Z.add_comm. apply Z.mod_small. split; [lia|]. nia. }
    unfold uge. rewrite ult_ok by congruence. cbn [option_map]. rewrite lnot_known.
    destruct (Z.ltb_spec (uval r1) (uval dv)) as [Hc|Hc]; cbn [negb known1].
    + destruct (IH (false :: q) r1) as (q1 & r2 & He2 & Hq & Hr2 & Hdiv & Hmod); [congruence|congruence|lia|lia| |].
      { rewrite Hv1', (modulus_len r1 r Hl1), <- HT. exact Htot. }
      exists (q1 ++ [false]), r2. split; [rewrite <- app_assoc; exact He2|].
      split; [rewrite app_length; simpl; lia|]. split; [congruence|].
      rewrite Hv1', <- HT in Hdiv, Hmod. split; [|exact Hmod].
      rewrite uval_app, Hdiv. change (uval [false]) with 0. lia.
    + destruct (sub_ok r1 dv) as (r2 & He2 & Hl2 & Hv2); [congruence|]. rewrite He2.
      assert (uval r2 = uval r1 - uval dv) as Hv2'.
      { rewrite Hv2. apply Z.mod_small. pose proof (uval_range r1). pose proof (uval_range dv). lia. }
      assert (r2 <> []) as Hr2 by (destruct r2; [destruct r1; [congruence|discriminate]|discriminate]).
      destruct (IH (true :: q) r2) as (q1 & r3 & He3 & Hq & Hr3 & Hdiv & Hmod); [congruence|congruence|lia| | |].
      { pose proof (b2_range x). lia. }
      { rewrite (modulus_len r2 r) by congruence. rewrite Hv2', Hv1'. nia. }
      exists (q1 ++ [true]), r3. split; [rewrite <- app_assoc; exact He3|].
      split; [rewrite app_length; simpl; lia|]. split; [congruence|].
      assert (uval r2 * 2 ^ Z.of_nat (length d) + uval (rev d) = T + (- 2 ^ Z.of_nat (length d)) * uval dv) as HT2.
      { rewrite HT, Hv2', Hv1'. ring. }
      rewrite HT2 in Hdiv, Hmod. rewrite Z.div_add in Hdiv by lia. rewrite Z.mod_add in Hmod by lia.
      split; [|exact Hmod]. rewrite uval_app, Hdiv. unfold modulus. rewrite Hq. change (uval [true]) with 1. lia.
Qed.

Lemma udiv_loop_zero (d dv q r : list bool) :
  length dv = length r -> r <> [] -> uval dv = 0 ->
  uval r * 2 ^ Z.of_nat (length d) + uval (rev d) < modulus r ->
  exists r1, udiv_loop (known d) (known dv) (known q) (known r) = Some (known (repeat true (length d) ++ q), known r1) /\
    length r1 = length r /\ uval r1 = uval r * 2 ^ Z.of_nat (length d) + uval (rev d).
Proof.
  revert q r. induction d as [|x d IH]; intros q r Hl Hr Hz Htot.
  - exists r. split; [reflexivity|]. split; [reflexivity|]. simpl rev. simpl (uval []). simpl length.
    rewrite Z.pow_0_r. lia.
  - cbn [known map udiv_loop]. fold (known d).
    destruct (shift_in_known x r Hr) as (r1 & He & Hl1 & Hv1).
    destruct (shl (known r) 1) as [s|]; [|discriminate]. injection He as He. cbv zeta. rewrite He.
    assert (r1 <> []) as Hr1 by (destruct r1; [destruct r; [congruence|discriminate]|discriminate]).
    set (T := uval r * 2 ^ Z.of_nat (length (x :: d)) + uval (rev (x :: d))) in *.
    assert (T = (2 * uval r + b2 x) * 2 ^ Z.of_nat (length d) + uval (rev d)) as HT.
    { unfold T. simpl length. simpl rev. rewrite uval_app. unfold modulus. rewrite rev_length.
      rewrite Nat2Z.inj_succ, Z.pow_succ_r by lia. rewrite uval_cons. simpl (uval []). ring. }
    assert (0 < 2 ^ Z.of_nat (length d)) as Hp by (apply Z.pow_pos_nonneg; lia).
    assert (0 <= uval (rev d) < 2 ^ Z.of_nat (length d)) as Hd.
    { pose proof (uval_range (rev d)) as H. unfold modulus in H. now rewrite rev_length in H. }
    pose proof (uval_range r) as Hur. pose proof (b2_range x) as Hb.
    assert (uval r1 = 2 * uval r + b2 x) as Hv1'.
    { rewrite Hv1, Z.add_comm. apply Z.mod_small. split; [lia|]. nia. }
    unfold uge. rewrite ult_ok by congruence. cbn [option_map]. rewrite lnot_known, Hz.
    pose proof (uval_range r1) as Hur1.
    destruct (Z.ltb_spec (uval r1) 0) as [Hc|Hc]; cbn [negb known1]; [lia|].
    destruct (sub_ok r1 dv) as (r2 & He2 & Hl2 & Hv2); [congruence|]. rewrite He2.
    assert (uval r2 = uval r1) as Hv2'.
    { rewrite Hv2, Hz, Z.sub_0_r. now apply Z.mod_small. }
    assert (r2 <> []) as Hr2 by (destruct r2; [destruct r1; [congruence|discriminate]|discriminate]).
    destruct (IH (true :: q) r2) as (r3 & He3 & Hl3 & Hv3); try congruence.
    { rewrite (modulus_len r2 r) by congruence. rewrite Hv2', Hv1', <- HT. exact Htot. }
    exists r3. split.
    + etransitivity; [exact He3|]. do 3 f_equal.
      simpl length. cbn [repeat]. change (true :: repeat true (length d) ++ q) with ((true :: repeat true (length d)) ++ q).
      assert (true :: repeat true (length d) = repeat true (length d) ++ [true]) as ->.
      { change (true :: repeat true (length d)) with (repeat true (S (length d))). rewrite <- repeat_cons. reflexivity. }
      now rewrite <- app_assoc.
    + split; [congruence|]. rewrite Hv3, Hv2', Hv1', <- HT. reflexivity.
Qed.

Lemma divide_ok a b : length a = length b -> a <> [] -> uval b <> 0 ->
  exists q r, divide (known a) (known b) = Some (known q, known r) /\ length q = length a /\ length r = length a /\
    uval q = uval a / uval b /\ uval r = uval a mod uval b.
Proof.
  intros Hl Ha Hb. unfold divide, nbits. rewrite known_length.
  assert (0 < length a)%nat by (destruct a; [congruence|simpl; lia]).
  rewrite of_int_zero by assumption. rewrite same_width_known by congruence. simpl negb. cbv iota.
  change B0 with (known1 false). rewrite <- known_repeat.
  unfold known at 1. rewrite <- map_rev. fold (known (rev a)).
  pose proof (uval_range b) as Hrb. pose proof (uval_range a) as Hra.
  destruct (udiv_loop_known (rev a) b [] (repeat false (length a))) as (q & r & He & Hq & Hr & Hdiv & Hmod).
  - now rewrite repeat_length.
  - destruct (length a); [lia|discriminate].
  - lia.
  - rewrite uval_zeros. lia.
  - rewrite uval_zeros, rev_involutive. rewrite (modulus_len _ a) by now rewrite repeat_length. lia.
  - exists q, r. rewrite app_nil_r in He. split; [exact He|]. rewrite rev_length in Hq. rewrite repeat_length in Hr.
    split; [exact Hq|]. split; [exact Hr|]. rewrite uval_zeros, rev_involutive in Hdiv, Hmod. auto.
Qed.
Lemma divide_zero a b : length a = length b -> a <> [] -> uval b = 0 ->
  divide (known a) (known b) = Some (known (repeat true (length a)), known a).
Proof.
  intros Hl Ha Hb. unfold divide, nbits. rewrite known_length.
  assert (0 < length a)%nat by (destruct a; [congruence|simpl; lia]).
  rewrite of_int_zero by assumption. rewrite same_width_known by congruence. simpl negb. cbv iota.
  change B0 with (known1 false). rewrite <- known_repeat.
  unfold known at 1. rewrite <- map_rev. fold (known (rev a)).
  pose proof (uval_range a) as Hra.
  destruct (udiv_loop_zero (rev a) b [] (repeat false (length a))) as (r & He & Hr & Hv).
  - now rewrite repeat_length.
  - destruct (length a); [lia|discriminate].
  - exact Hb.
  - rewrite uval_zeros, rev_involutive. rewrite (modulus_len _ a) by now rewrite repeat_length. lia.
  - rewrite app_nil_r, rev_length in He. rewrite uval_zeros, rev_involutive, Z.mul_0_l, Z.add_0_l in Hv.
    rewrite repeat_length in Hr. assert (r = a) as -> by (apply uval_inj; auto). exact He.
Qed.
Lemma divide_width a b : length a <> length b -> divide a b = None.
Proof.
  intros H. unfold divide. destruct (of_int _ _); [|reflexivity].
  rewrite same_width_false by congruence. reflexivity.
Qed.

(** signed *)
Lemma is_negative_known a : a <> [] -> is_negative (known a) = (sval a <? 0).
Proof.
  intros Ha. unfold is_negative. rewrite sign_known by assumption. unfold sval. pose proof (uval_range a).
  destruct (Z.ltb_spec (2 * uval a) (modulus a)); cbn [negb known1 bit_eqb]; symmetry;
    [apply Z.ltb_ge|apply Z.ltb_lt]; lia.
Qed.
Lemma abs_known a : a <> [] ->
  exists s, abs_v (known a) = known s /\ length s = length a /\ uval s = Z.abs (sval a).
Proof.
  intros Ha. unfold abs_v. rewrite is_negative_known by assumption. pose proof (uval_range a).
  destruct (Z.ltb_spec (sval a) 0) as [H0|H0].
  - destruct (neg_ok a) as (s & He & Hs & Hv). exists s. split; [exact He|]. split; [exact Hs|].
    rewrite Hv. unfold sval in *. destruct (Z.ltb_spec (2 * uval a) (modulus a)); [lia|].
    rewrite Z.abs_neq by lia. replace (- uval a) with ((modulus a - uval a) + (-1) * modulus a) by ring.
    rewrite Z.mod_add by lia. rewrite Z.mod_small by lia. lia.
  - exists a. split; [reflexivity|]. split; [reflexivity|]. unfold sval in *.
    destruct (Z.ltb_spec (2 * uval a) (modulus a)); [|lia]. rewrite Z.abs_eq; lia.
Qed.
Lemma neg_val q v : uval q = v mod modulus q ->
  exists s, neg (known q) = known s /\ length s = length q /\ uval s = (- v) mod modulus q.
Proof.
  intros Hq. destruct (neg_ok q) as (s & He & Hs & Hv). exists s. split; [exact He|]. split; [exact Hs|].
  rewrite Hv, Hq. replace (- (v mod modulus q)) with (0 - v mod modulus q) by ring.
  rewrite Zminus_mod_idemp_r. f_equal.
Qed.
Lemma sdiv_ok a b : length a = length b -> a <> [] -> uval b <> 0 ->
  exists q, sdiv (known a) (known b) = Some (known q) /\ length q = length a /\
    uval q = Z.quot (sval a) (sval b) mod modulus a.
Proof.
  intros Hl Ha Hb. assert (b <> []) as Hbn by (destruct a, b; try discriminate; congruence).
  destruct (abs_known a Ha) as (a' & Ea & La & Va). destruct (abs_known b Hbn) as (b' & Eb & Lb & Vb).
  unfold sdiv. rewrite Ea, Eb.
  assert (sval b <> 0) as Hsb.
  { intros E. apply Hb. rewrite <- (sval_mod b), E. apply Z.mod_0_l. pose proof (modulus_pos b); lia. }
  destruct (divide_ok a' b') as (q & r & He & Hq & _ & Hdiv & _).
  - congruence.
  - destruct a'; [destruct a; [congruence|discriminate]|discriminate].
  - rewrite Vb. lia.
  - rewrite He. rewrite !is_negative_known by assumption. pose proof (modulus_pos a) as Hmp.
    assert (uval q = (Z.abs (sval a) / Z.abs (sval b)) mod modulus q) as Hqm.
    { rewrite <- Va, <- Vb, <- Hdiv. symmetry. apply Z.mod_small, uval_range. }
    assert (modulus q = modulus a) as Hmq by (apply modulus_len; congruence).
    assert (0 <= Z.abs (sval a) / Z.abs (sval b)) by (apply Z.div_pos; lia).
    rewrite <- (Z.quot_div_nonneg (Z.abs (sval a)) (Z.abs (sval b))) in Hqm by lia.
    destruct (Z.ltb_spec (sval a) 0) as [Hsa|Hsa], (Z.ltb_spec (sval b) 0) as [Hsb'|Hsb']; cbn [xorb].
    + exists q. split; [reflexivity|]. split; [congruence|]. rewrite Hqm, Hmq.
      rewrite (Z.abs_neq (sval a)), (Z.abs_neq (sval b)), Z.quot_opp_opp by lia. reflexivity.
    + destruct (neg_val q _ Hqm) as (s & -> & Hs & Hv). exists s. split; [reflexivity|]. split; [congruence|].
      rewrite Hv, Hmq. rewrite (Z.abs_neq (sval a)), (Z.abs_eq (sval b)), Z.quot_opp_l, Z.opp_involutive by lia. reflexivity.
    + destruct (neg_val q _ Hqm) as (s & -> & Hs & Hv). exists s. split; [reflexivity|]. split; [congruence|].
      rewrite Hv, Hmq. rewrite (Z.abs_eq (sval a)), (Z.abs_neq (sval b)), Z.quot_opp_r, Z.opp_involutive by lia. reflexivity.
    + exists q. split; [reflexivity|]. split; [congruence|]. rewrite Hqm, Hmq.
      rewrite (Z.abs_eq (sval a)), (Z.abs_eq (sval b)) by lia. reflexivity.
Qed.
Lemma smod_ok a b : length a = length b -> a <> [] -> uval b <> 0 ->
  exists r, smod (known a) (known b) = Some (known r) /\ length r = length a /\
    uval r = Z.rem (sval a) (sval b) mod modulus a.
Proof.
  intros Hl Ha Hb. assert (b <> []) as Hbn by (destruct a, b; try discriminate; congruence).
  destruct (abs_known a Ha) as (a' & Ea & La & Va). destruct (abs_known b Hbn) as (b' & Eb & Lb & Vb).
  unfold smod. rewrite Ea, Eb.
  assert (sval b <> 0) as Hsb.
  { intros E. apply Hb. rewrite <- (sval_mod b), E. apply Z.mod_0_l. pose proof (modulus_pos b); lia. }
  destruct (divide_ok a' b') as (q & r & He & _ & Hr & _ & Hmod).
  - congruence.
  - destruct a'; [destruct a; [congruence|discriminate]|discriminate].
  - rewrite Vb. lia.
  - rewrite He. rewrite !is_negative_known by assumption. pose proof (modulus_pos a) as Hmp.
    assert (uval r = (Z.abs (sval a) mod Z.abs (sval b)) mod modulus r) as Hqm.
    { rewrite <- Va, <- Vb, <- Hmod. symmetry. apply Z.mod_small, uval_range. }
    assert (modulus r = modulus a) as Hmq by (apply modulus_len; congruence).
    rewrite <- (Z.rem_mod_nonneg (Z.abs (sval a)) (Z.abs (sval b))) in Hqm by lia.
    assert (Z.rem (Z.abs (sval a)) (Z.abs (sval b)) = Z.abs (Z.rem (sval a) (sval b))) as Habs
      by (now rewrite Z.rem_abs).
    rewrite Habs in Hqm.
    destruct (Z.ltb_spec (sval a) 0) as [Hsa|Hsa].
    + destruct (neg_val r _ Hqm) as (s & -> & Hs & Hv). exists s. split; [reflexivity|]. split; [congruence|].
      rewrite Hv, Hmq. f_equal. pose proof (Z.rem_nonpos (sval a) (sval b) Hsb ltac:(lia)). lia.
    + exists r. split; [reflexivity|]. split; [congruence|]. rewrite Hqm, Hmq. f_equal.
      pose proof (Z.rem_nonneg (sval a) (sval b) Hsb ltac:(lia)). lia.
Qed.
