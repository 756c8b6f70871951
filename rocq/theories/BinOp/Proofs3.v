(** Slices and concatenations of bit strings. *)
From stdpp Require Import base list list_numbers.
From Verif.Bits Require Import Model Proofs.
From Verif.BinOp Require Import Model Spec Proofs.

Lemma pairwise_loop_same {A} (red : A -> A -> option A) acc left rest : length (pairwise_loop red acc left rest) <= length acc + S (length rest) /\
  (length (pairwise_loop red acc left rest) = length acc + S (length rest) -> pairwise_loop red acc left rest = acc ++ left :: rest).
Proof.
  revert acc left. induction rest as [|r rest IH]; intros acc left; cbn [pairwise_loop]; [rewrite app_length; cbn; split; [lia | done]|]. destruct (red left r) as [c|].
  - destruct (IH acc c) as [H1 H2]. cbn. split; [lia|]. intros H. lia.
  - destruct (IH (acc ++ [left]) r) as [H1 H2]. rewrite app_length in H1, H2. cbn in *. split; [lia|]. intros H. rewrite H2 by lia. by rewrite <-app_assoc.
Qed.
(** each reduction removes an operand: a list of the same length is the same list *)
Lemma pairwise_reduce_same {A} (red : A -> A -> option A) args : length (pairwise_reduce red args) = length args -> pairwise_reduce red args = args.
Proof. destruct args as [|a l]; [done|]. cbn [pairwise_reduce]. intros H. by apply (pairwise_loop_same red [] a l). Qed.

(** the bits of the operands one after the other *)
Notation joined := (foldr concat_bits []).
Section Bits.
  Context (env : nat -> bits).
  Notation bval := (bvalue env).
  Lemma bterm_ind' (P : bterm -> Prop) : (forall x w, P (BVar x w)) -> (forall v, P (BConst v)) -> (forall lo hi t, P t -> P (BSlice lo hi t)) -> (forall l, Forall P l -> P (BConcat l)) -> forall t, P t.
  Proof. intros H1 H2 H3 H4. fix IH 1. intros [x w|v|lo hi t|l]; [apply H1 | apply H2 | apply H3; apply IH|]. apply H4. induction l as [|x l IHl]; constructor; [apply IH | exact IHl]. Qed.
  Lemma bits_eqb_iff v : forall w, bits_eqb v w = true <-> v = w.
  Proof. induction v as [|x v IH]; intros [|y w]; cbn [bits_eqb]; try done. rewrite andb_true_iff, IH. assert (Hb : bit_eqb x y = true <-> x = y) by (destruct x, y; cbn; done). rewrite Hb. split; [intros [-> ->]; done | intros [= -> ->]; done]. Qed.
  Lemma bterm_eqb_iff s : forall t, bterm_eqb s t = true <-> s = t.
  Proof.
    induction s as [x w|c|lo hi s IH|l IH] using bterm_ind'; intros [y u|d|lo' hi' t|l']; cbn [bterm_eqb]; try done.
    - rewrite andb_true_iff, !bool_decide_eq_true. split; [intros [-> ->]; done | intros [= -> ->]; done].
    - rewrite bits_eqb_iff. split; congruence.
    - rewrite !andb_true_iff, !bool_decide_eq_true, IH. split; [intros [[-> ->] ->]; done | intros [= -> -> ->]; done].
    - assert (Hl : (fix go (l l' : list bterm) := match l, l' with [], [] => true | x :: l, y :: l' => bterm_eqb x y && go l l' | _, _ => false end) l l' = true <-> l = l').
      { revert l'. induction IH as [|x l Hx Hl IHl]; intros [|y l']; try done. rewrite andb_true_iff, Hx, IHl. split; [intros [-> ->]; done | intros [= -> ->]; done]. }
      rewrite Hl. split; congruence.
  Qed.
  Lemma bterms_eqb_iff l l' : bterms_eqb l l' = true <-> l = l'.
  Proof. revert l'. induction l as [|x l IH]; intros [|y l']; cbn [bterms_eqb]; try done. rewrite andb_true_iff, bterm_eqb_iff, IH. split; [intros [-> ->]; done | intros [= -> ->]; done]. Qed.
  Lemma slice_inv v lo hi r : slice v lo hi = Some r -> lo < hi <= length v /\ r = take (hi - lo) (drop lo v).
  Proof. intros H. destruct (decide (lo < hi <= length v)) as [Hd|Hd]; [|rewrite slice_none in H by done; done]. rewrite slice_some in H by done. injection H as <-. done. Qed.
  Lemma bvalue_width t v : bval t = Some v -> length v = width t /\ 0 < length v.
  Proof.
    revert v. induction t as [x w|c|lo hi t IH|l IH] using bterm_ind'; intros v H; cbn [bvalue width] in *.
    - case_decide as Hd; [|done]. injection H as <-. split; [apply Hd | destruct Hd; lia].
    - case_decide; [|done]. injection H as <-. split; [done | lia].
    - destruct (bval t) as [u|] eqn:E; [|done]. cbn [mbind option_bind] in H. apply slice_inv in H as [H1 ->]. rewrite take_length, drop_length. lia.
    - destruct (mapM bval l) as [vs|] eqn:E; [|done]. cbn [mbind option_bind] in H. apply mapM_Some in E.
      assert (Hs : length (joined vs) = sum_list_with width l /\ (vs <> [] -> 0 < length (joined vs))).
      { clear H. induction E as [|t u l us Ht Hl IHl]; [done|]. inversion IH as [|? ? I1 I2]; subst. destruct (I1 u Ht) as [W1 W2]. destruct (IHl I2) as [S1 S2]. cbn. rewrite app_length. split; [lia|]. intros _. lia. }
      destruct vs as [|u vs]; [done|]. injection H as <-. destruct Hs as [S1 S2]. split; [exact S1 | by apply S2].
  Qed.
  Lemma concat_value l vs : mapM bval l = Some vs -> l <> [] -> bval (BConcat l) = Some (joined vs).
  Proof. intros H Hl. cbn [bvalue]. rewrite H. cbn [mbind option_bind]. destruct vs; [|done]. apply mapM_Some in H. by inversion H; subst. Qed.
  Lemma concat_value_inv l v : bval (BConcat l) = Some v -> exists vs, mapM bval l = Some vs /\ v = joined vs /\ l <> [].
  Proof. cbn [bvalue]. destruct (mapM bval l) as [vs|] eqn:E; [|done]. cbn [mbind option_bind]. destruct vs as [|u vs]; [done|]. intros [= <-]. exists (u :: vs). split; [done|]. split; [done|]. intros ->. done. Qed.
  Lemma fold1_concat (vs : list bits) : fold1 concat_bits vs = match vs with [] => None | _ => Some (joined vs) end.
  Proof. destruct vs as [|v vs]; [done|]. cbn. f_equal. revert v. induction vs as [|u vs IH]; intros v; cbn; [unfold concat_bits; by rewrite app_nil_r|]. rewrite IH. unfold concat_bits. by rewrite <-app_assoc. Qed.

  Lemma take_take_drop (v : bits) lo hi lo' hi' : lo' < hi' -> hi' <= hi - lo -> take (hi' - lo') (drop lo' (take (hi - lo) (drop lo v))) = take (hi' - lo') (drop (lo' + lo) v).
  Proof. intros H1 H2. rewrite skipn_firstn_comm, take_take, drop_drop. f_equal; [lia | f_equal; lia]. Qed.
  Lemma narrow_value lo hi t t' v : slice_narrow lo hi t = Some t' -> bval (BSlice lo hi t) = Some v -> bval t' = Some v.
  Proof.
    destruct t as [| |lo' hi' t|]; cbn [slice_narrow]; try done. intros [= <-] H. cbn [bvalue] in *. destruct (bval t) as [u|] eqn:E; [|done]. cbn [mbind option_bind] in *.
    destruct (slice u lo' hi') as [u'|] eqn:E'; [|done]. cbn [mbind option_bind] in H. apply slice_inv in E' as [H1 ->]. apply slice_inv in H as [H2 ->]. rewrite take_length, drop_length in H2.
    rewrite slice_some by lia. f_equal. symmetry. replace (hi + lo' - (lo + lo')) with (hi - lo) by lia. apply take_take_drop; lia.
  Qed.
  (** the pieces that the loop cuts out of the operands *)
  Lemma distribute_value lo hi pos l vs : lo < hi -> mapM bval l = Some vs -> exists us, mapM bval (distribute_loop lo hi pos l) = Some us /\ joined us = take (hi - (lo `max` pos)) (drop (lo - pos) (joined vs)).
  Proof.
    intros Hlh. revert pos vs. induction l as [|t l IH]; intros pos vs H; [cbn in H; injection H as <-; exists []; cbn; by rewrite drop_nil, take_nil|].
    apply mapM_Some in H. inversion H as [|? v ? vs1 Hv Hl]; subst. apply mapM_Some in Hl. destruct (bvalue_width t v Hv) as [W1 W2]. cbn [distribute_loop]. destruct (IH (pos + width t) vs1 Hl) as (us & U1 & U2).
    change (joined (v :: vs1)) with (v ++ joined vs1). rewrite skipn_app, firstn_app. rewrite drop_length.
    case_decide as Hd.
    - set (lo1 := if decide (pos < lo) then lo - pos else 0). set (hi1 := if decide (hi < pos + width t) then hi - pos else pos + width t - pos).
      assert (Hlo : lo1 = lo - pos) by (unfold lo1; case_decide; lia). assert (Hhi : hi1 = (hi `min` (pos + width t)) - pos) by (unfold hi1; case_decide; lia).
      assert (Hb : bval (BSlice lo1 hi1 t) = Some (take (hi1 - lo1) (drop lo1 v))) by (cbn [bvalue]; rewrite Hv; cbn [mbind option_bind]; apply slice_some; lia).
      exists (take (hi1 - lo1) (drop lo1 v) :: us). split; [apply mapM_Some; constructor; [exact Hb | by apply mapM_Some]|]. change (joined (?a :: us)) with (a ++ joined us). rewrite U2. f_equal.
      + rewrite Hlo. destruct (decide (hi - lo `max` pos <= length v - (lo - pos))); [f_equal; lia|]. rewrite !take_ge; [done | |]; rewrite drop_length; lia.
      + replace (lo - (pos + width t)) with 0 by lia. replace (lo - pos - length v) with 0 by lia. rewrite !drop_0. f_equal. lia.
    - exists us. split; [done|]. rewrite U2. destruct (decide (hi <= pos)) as [Hp|Hp].
      + replace (hi - lo `max` (pos + width t)) with 0 by lia. replace (hi - lo `max` pos) with 0 by lia. by rewrite !take_0.
      + rewrite (drop_ge v) by lia. rewrite take_nil. cbn. f_equal; [lia | f_equal; lia].
  Qed.
  Lemma distribute_slice_value lo hi t t' v : slice_distribute lo hi t = Some t' -> bval (BSlice lo hi t) = Some v -> bval t' = Some v.
  Proof.
    destruct t as [| | |l]; cbn [slice_distribute]; try done. intros [= <-] H. cbn [bvalue] in H. fold (bval (BConcat l)) in H. destruct (bval (BConcat l)) as [u|] eqn:E.
    2:{ cbn [bvalue] in E. rewrite E in H. done. }
    assert (E' := E). cbn [bvalue] in E'. rewrite E' in H. cbn [mbind option_bind] in H. apply slice_inv in H as [H1 ->]. apply concat_value_inv in E as (vs & E1 & -> & Hl).
    destruct (distribute_value lo hi 0 l vs ltac:(lia) E1) as (us & U1 & U2). rewrite Nat.max_0_r, Nat.sub_0_r in U2. rewrite (concat_value _ us U1); [by rewrite U2|].
    intros Hn. rewrite Hn in U1. cbn in U1. injection U1 as <-. cbn in U2. assert (Hlen : length (take (hi - lo) (drop lo (joined vs))) = 0) by (by rewrite <-U2). rewrite take_length, drop_length in Hlen. lia.
  Qed.
  Lemma concat_pair_value same a b c x y : (forall s t, same s t = true -> s = t) -> concat_pair same a b = Some c -> bval a = Some x -> bval b = Some y -> bval c = Some (concat_bits x y).
  Proof.
    intros Hs. destruct a as [| v |lo hi t|]; cbn [concat_pair]; try done; destruct b as [| w |lo' hi' t'|]; try done.
    - intros [= <-] H1 H2. cbn [bvalue] in *. case_decide; [|done]. case_decide; [|done]. injection H1 as <-. injection H2 as <-. rewrite decide_True; [done|]. unfold concat_bits. rewrite app_length. lia.
    - destruct (same t t') eqn:E; [|done]. apply Hs in E as <-. cbn [andb]. case_bool_decide as Hb; [|done]. subst lo'. intros [= <-] H1 H2. cbn [bvalue] in *. destruct (bval t) as [u|]; [|done]. cbn [mbind option_bind] in *.
      apply slice_inv in H1 as [H1 ->]. apply slice_inv in H2 as [H2 ->]. rewrite slice_some by lia. f_equal. unfold concat_bits. rewrite <-(take_drop (hi - lo) (take (hi' - lo) (drop lo u))). rewrite take_take. f_equal; [f_equal; lia|]. rewrite skipn_firstn_comm, drop_drop. f_equal; [lia | f_equal; lia].
  Qed.
  (** flattening of concatenations *)
  Fixpoint bsize (t : bterm) : nat := match t with BConcat l => S (sum_list_with bsize l) | BSlice _ _ t => S (bsize t) | _ => 1 end.
  Lemma concat_flatten_total todo acc vs : mapM bval todo = Some vs -> exists fuel res us, flatten_loop concat_operands fuel acc todo = Some (acc ++ res) /\ mapM bval res = Some us /\ joined us = joined vs /\ Forall (fun t => concat_operands t = None) res.
  Proof.
    remember (sum_list_with bsize todo) as n eqn:Hn. revert acc todo vs Hn. induction (lt_wf n) as [n _ IH]. intros acc todo vs Hn Hv. destruct todo as [|t todo]; [exists 1, [], []; cbn in Hv; injection Hv as <-; split; [cbn; by rewrite app_nil_r|]; done|].
    apply mapM_Some in Hv. inversion Hv as [|? v ? vs1 Ht Htodo]; subst. cbn in IH. destruct (concat_operands t) as [l|] eqn:E.
    - destruct t as [| | |k]; try done. injection E as ->. apply concat_value_inv in Ht as (ws & W1 & -> & Hne). destruct l as [|a l]; [done|]. apply mapM_Some in W1.
      assert (Hm : mapM bval ((a :: l) ++ todo) = Some (ws ++ vs1)) by (apply mapM_Some; by apply Forall2_app).
      edestruct (IH (sum_list_with bsize ((a :: l) ++ todo))) with (acc := acc) as (fuel & res & us & R1 & R2 & R3 & R4); [|reflexivity|exact Hm|].
      { assert (Hs : forall l l', sum_list_with bsize (l ++ l') = sum_list_with bsize l + sum_list_with bsize l') by (induction l0 as [|? ? IHx]; intros l'; cbn; [done|]; rewrite IHx; lia). rewrite Hs. cbn. lia. }
      exists (S fuel), res, us. split; [cbn [flatten_loop concat_operands]; exact R1|]. split; [done|]. split; [|done]. rewrite R3. clear. induction ws as [|w ws IH]; cbn; [done|]. rewrite IH. unfold concat_bits. apply app_assoc.
    - assert (Hb : 0 < bsize t) by (destruct t; cbn; lia). apply mapM_Some in Htodo. destruct (IH (sum_list_with bsize todo) ltac:(lia) (acc ++ [t]) todo vs1 eq_refl Htodo) as (fuel & res & us & R1 & R2 & R3 & R4).
      exists (S fuel), (t :: res), (v :: us). split; [cbn [flatten_loop]; rewrite E, R1; by rewrite <-app_assoc|]. split; [apply mapM_Some; constructor; [done | by apply mapM_Some]|]. split; [cbn; by rewrite R3 | by constructor].
  Qed.
End Bits.
