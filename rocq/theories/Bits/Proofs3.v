(** Logical-relation argument: every operation of the class except the
    divisions is built from the bit operations, so any relation on bits that
    they preserve is preserved by the operation. *)
From Coq Require Import ZArith List Bool Lia.
From Verif.Bits Require Import Model Spec Proofs Proofs2.
Import ListNotations.

Inductive opt_rel {A B} (R : A -> B -> Prop) : option A -> option B -> Prop :=
| opt_none : opt_rel R None None
| opt_some a b : R a b -> opt_rel R (Some a) (Some b).

Lemma Forall2_len {A B} {R : A -> B -> Prop} {a b} : Forall2 R a b -> length a = length b.
Proof. intros H. induction H; simpl; congruence. Qed.

Section Rel.
  Variable R : bit -> bit -> Prop.
  Hypothesis R0 : R B0 B0.
  Hypothesis R1 : R B1 B1.
  Hypothesis Ror : forall a b c d, R a c -> R b d -> R (lor a b) (lor c d).
  Hypothesis Rand : forall a b c d, R a c -> R b d -> R (land a b) (land c d).
  Hypothesis Rxor : forall a b c d, R a c -> R b d -> R (lxor a b) (lxor c d).
  Let RV := Forall2 R.

  Lemma Rnot a b : R a b -> R (lnot a) (lnot b). Proof. intros; now apply Rxor. Qed.
  Lemma Rcarry a b c a' b' c' : R a a' -> R b b' -> R c c' -> R (carry a b c) (carry a' b' c').
  Proof. intros; unfold carry; auto. Qed.
  Lemma Radd3 a b c a' b' c' : R a a' -> R b b' -> R c c' -> R (add3 a b c) (add3 a' b' c').
  Proof. intros; unfold add3; auto. Qed.
  Lemma RV_length v w : RV v w -> nbits v = nbits w. Proof. apply Forall2_len. Qed.
  Lemma RV_repeat b n : R b b -> RV (repeat b n) (repeat b n).
  Proof. intros H. induction n; constructor; auto. Qed.
  Lemma RV_repeat2 b c n : R b c -> RV (repeat b n) (repeat c n).
  Proof. intros H. induction n; constructor; auto. Qed.
  Lemma RV_same a b a' b' : RV a a' -> RV b b' -> same_width a b = same_width a' b'.
  Proof. intros H1 H2. unfold same_width. now rewrite (RV_length _ _ H1), (RV_length _ _ H2). Qed.
  Lemma RV_app a b a' b' : RV a a' -> RV b b' -> RV (a ++ b) (a' ++ b').
  Proof. apply Forall2_app. Qed.
  Lemma RV_firstn n a b : RV a b -> RV (firstn n a) (firstn n b).
  Proof. intros H. revert n. induction H; intros [|n]; simpl; constructor; auto. apply IHForall2. Qed.
  Lemma RV_skipn n a b : RV a b -> RV (skipn n a) (skipn n b).
  Proof. intros H. revert n. induction H; intros [|n]; simpl; [constructor|constructor|constructor; auto|apply IHForall2]. Qed.
  Lemma RV_of_str a b : RV a b -> opt_rel RV (of_str a) (of_str b).
  Proof. intros H. destruct H; constructor. now constructor. Qed.
  Lemma RV_slice a b l h : RV a b -> opt_rel RV (slice a l h) (slice b l h).
  Proof.
    intros H. unfold slice. rewrite (RV_length _ _ H). destruct (_ || _)%bool; [constructor|].
    now apply RV_of_str, RV_firstn, RV_skipn.
  Qed.
  Lemma R_sign a b : a <> [] -> RV a b -> R (sign a) (sign b).
  Proof.
    intros Hne H. unfold sign. induction H as [|x y a b Hxy H IH]; [congruence|].
    destruct H as [|x' y' a b]; [exact Hxy|]. apply IH. discriminate.
  Qed.
  Lemma RV_zext a b n : RV a b -> opt_rel RV (zext a n) (zext b n).
  Proof. intros H. rewrite !zext_some. constructor. apply RV_app; auto. now apply RV_repeat. Qed.
  Lemma RV_sext a b n : a <> [] -> RV a b -> opt_rel RV (sext a n) (sext b n).
  Proof. intros Hn H. rewrite !sext_some. constructor. apply RV_app; auto. apply RV_repeat2. now apply R_sign. Qed.
  Lemma RV_flip a b : RV a b -> RV (flip_sign a) (flip_sign b).
  Proof.
    intros H. induction H as [|x y a b Hxy H IH]; [constructor|].
    destruct H as [|x' y' a b]; simpl in *; constructor; auto. now apply Rnot.
  Qed.
  Lemma R_ult_loop a b a' b' v v' : RV a a' -> RV b b' -> R v v' -> R (ult_loop a b v) (ult_loop a' b' v').
  Proof.
    intros Ha. revert b b' v v'. induction Ha as [|x x' a a' Hx Ha IH]; intros b b' v v' Hb Hv; [exact Hv|].
    destruct Hb as [|y y' b b' Hy Hb]; [exact Hv|]. simpl. apply IH; [exact Hb|].
    apply Rand; [apply Ror; [now apply Rnot|assumption]|]. apply Ror; [|assumption]. apply Rand; [now apply Rnot|assumption].
  Qed.
  Lemma R_ult a b a' b' : RV a a' -> RV b b' -> opt_rel R (ult a b) (ult a' b').
  Proof.
    intros Ha Hb. unfold ult. rewrite (RV_same _ _ _ _ Ha Hb). destruct (negb _); [constructor|].
    destruct Ha; [constructor|]. destruct Hb; [constructor|]. constructor. apply R_ult_loop; auto.
    apply Rand; [now apply Rnot|assumption].
  Qed.
  Lemma R_slt a b a' b' : RV a a' -> RV b b' -> opt_rel R (slt a b) (slt a' b').
  Proof. intros. unfold slt. apply R_ult; now apply RV_flip. Qed.
  Lemma R_ule_loop a b a' b' v v' : RV a a' -> RV b b' -> R v v' -> R (ule_loop a b v) (ule_loop a' b' v').
  Proof.
    intros Ha. revert b b' v v'. induction Ha as [|x x' a a' Hx Ha IH]; intros b b' v v' Hb Hv; [exact Hv|].
    destruct Hb as [|y y' b b' Hy Hb]; [exact Hv|]. simpl. apply IH; [exact Hb|].
    pose proof (Rnot _ _ Hx). auto.
  Qed.
  Lemma R_ule a b a' b' : RV a a' -> RV b b' -> opt_rel R (ule a b) (ule a' b').
  Proof.
    intros Ha Hb. unfold ule. rewrite (RV_same _ _ _ _ Ha Hb). destruct (negb _); constructor. now apply R_ule_loop.
  Qed.
  Lemma R_sle a b a' b' : RV a a' -> RV b b' -> opt_rel R (sle a b) (sle a' b').
  Proof. intros. unfold sle. apply R_ule; now apply RV_flip. Qed.
  Lemma R_ne_loop a b a' b' v v' : RV a a' -> RV b b' -> R v v' -> R (ne_loop a b v) (ne_loop a' b' v').
  Proof.
    intros Ha. revert b b' v v'. induction Ha as [|x x' a a' Hx Ha IH]; intros b b' v v' Hb Hv; [exact Hv|].
    destruct Hb as [|y y' b b' Hy Hb]; [exact Hv|]. simpl. apply IH; [exact Hb|]. auto.
  Qed.
  Lemma R_ne a b a' b' : RV a a' -> RV b b' -> opt_rel R (ne a b) (ne a' b').
  Proof.
    intros Ha Hb. unfold ne. rewrite (RV_same _ _ _ _ Ha Hb). destruct (negb _); constructor. now apply R_ne_loop.
  Qed.
  Lemma R_optnot a b : opt_rel R a b -> opt_rel R (option_map lnot a) (option_map lnot b).
  Proof. intros []; constructor. now apply Rnot. Qed.

  Lemma RV_map2 f a b a' b' : (forall x y z w, R x z -> R y w -> R (f x y) (f z w)) ->
    RV a a' -> RV b b' -> RV (map2 f a b) (map2 f a' b').
  Proof.
    intros Hf Ha. revert b b'. induction Ha as [|x x' a a' Hx Ha IH]; intros b b' Hb; [constructor|].
    destruct Hb; simpl; constructor; auto. now apply IH.
  Qed.
  Lemma RV_land a b a' b' : RV a a' -> RV b b' -> opt_rel RV (land_v a b) (land_v a' b').
  Proof. intros Ha Hb. unfold land_v. rewrite (RV_same _ _ _ _ Ha Hb). destruct (negb _); constructor. now apply RV_map2. Qed.
  Lemma RV_lor a b a' b' : RV a a' -> RV b b' -> opt_rel RV (lor_v a b) (lor_v a' b').
  Proof. intros Ha Hb. unfold lor_v. rewrite (RV_same _ _ _ _ Ha Hb). destruct (negb _); constructor. now apply RV_map2. Qed.
  Lemma RV_lxor a b a' b' : RV a a' -> RV b b' -> opt_rel RV (lxor_v a b) (lxor_v a' b').
  Proof. intros Ha Hb. unfold lxor_v. rewrite (RV_same _ _ _ _ Ha Hb). destruct (negb _); constructor. now apply RV_map2. Qed.
  Lemma RV_lnot a b : RV a b -> opt_rel RV (lnot_v a) (lnot_v b).
  Proof.
    intros H. unfold lnot_v. rewrite (RV_length _ _ H). destruct (nbits b) as [|n] eqn:E; [constructor|].
    rewrite repeat_bit_some by lia. apply RV_lxor; [exact H|]. now apply RV_repeat.
  Qed.
  Lemma RV_add_loop a b a' b' c c' : RV a a' -> RV b b' -> R c c' -> RV (add_loop a b c) (add_loop a' b' c').
  Proof.
    intros Ha. revert b b' c c'. induction Ha as [|x x' a a' Hx Ha IH]; intros b b' c c' Hb Hc; [constructor|].
    destruct Hb; simpl; constructor; [now apply Radd3|]. apply IH; [assumption|]. now apply Rcarry.
  Qed.
  Lemma RV_add a b a' b' : RV a a' -> RV b b' -> opt_rel RV (add a b) (add a' b').
  Proof. intros Ha Hb. unfold add. rewrite (RV_same _ _ _ _ Ha Hb). destruct (negb _); constructor. now apply RV_add_loop. Qed.
  Lemma RV_neg a b : RV a b -> RV (neg a) (neg b).
  Proof.
    intros H. unfold neg. assert (R B1 B1) as Hc by exact R1. revert Hc. generalize B1 at 1 3 as c. generalize B1 as c'.
    induction H as [|x y a b Hxy H IH]; intros c' c Hc; [constructor|]. simpl. constructor.
    - apply Radd3; auto.
    - apply IH. apply Rcarry; auto.
  Qed.
  Lemma RV_sub a b a' b' : RV a a' -> RV b b' -> opt_rel RV (sub a b) (sub a' b').
  Proof. intros. unfold sub. apply RV_add; [assumption|]. now apply RV_neg. Qed.
  Lemma RV_nonempty a b : RV a b -> a <> [] -> b <> [].
  Proof. intros []; congruence. Qed.
  Lemma RV_shr a b s : a <> [] -> RV a b -> opt_rel RV (shr a s) (shr b s).
  Proof.
    intros Hn H. rewrite !shr_some by eauto using RV_nonempty. constructor. rewrite (Forall2_len H).
    apply RV_app; [now apply RV_skipn|now apply RV_repeat].
  Qed.
  Lemma RV_ashr a b s : a <> [] -> RV a b -> opt_rel RV (ashr a s) (ashr b s).
  Proof.
    intros Hn H. rewrite !ashr_some by eauto using RV_nonempty. constructor. rewrite (Forall2_len H).
    apply RV_app; [now apply RV_skipn|]. apply RV_repeat2. now apply R_sign.
  Qed.
  Lemma RV_shl a b s : a <> [] -> RV a b -> opt_rel RV (shl a s) (shl b s).
  Proof.
    intros Hn H. rewrite !shl_some by eauto using RV_nonempty. constructor. rewrite (Forall2_len H).
    apply RV_app; [now apply RV_repeat|now apply RV_firstn].
  Qed.
  Lemma RV_mul_row f f' a a' p p' c c' : R f f' -> RV a a' -> RV p p' -> R c c' ->
    RV (mul_row f a p c) (mul_row f' a' p' c').
  Proof.
    intros Hf Ha. revert p p' c c'. induction Ha as [|x x' a a' Hx Ha IH]; intros p p' c c' Hp Hc; [exact Hp|].
    destruct Hp as [|y y' p p' Hy Hp]; [constructor|]. simpl. constructor.
    - apply Radd3; auto.
    - apply IH; [assumption|]. apply Rcarry; auto.
  Qed.
  Lemma RV_mul_loop a a' b b' p p' : RV a a' -> RV b b' -> RV p p' -> RV (mul_loop a b p) (mul_loop a' b' p').
  Proof.
    intros Ha Hb. revert p p'. induction Ha as [|x x' a a' Hx Ha IH]; intros p p' Hp; [exact Hp|]. simpl.
    destruct (RV_mul_row x x' b b' p p' B0 B0 Hx Hb Hp R0) as [|y y' q q' Hy Hq]; constructor; auto. now apply IH.
  Qed.
  Lemma RV_mul a b a' b' : RV a a' -> RV b b' -> opt_rel RV (mul a b) (mul a' b').
  Proof.
    intros Ha Hb. unfold mul. rewrite (RV_same _ _ _ _ Ha Hb). destruct (negb _); [constructor|].
    rewrite (RV_length _ _ Ha). destruct (nbits a') as [|n] eqn:E; [constructor|].
    rewrite of_int_zero by lia. apply RV_slice. apply RV_mul_loop; auto. now apply RV_repeat.
  Qed.
  Lemma RV_umulh a b a' b' : RV a a' -> RV b b' -> opt_rel RV (umulh a b) (umulh a' b').
  Proof.
    intros Ha Hb. unfold umulh, mulh. rewrite (RV_same _ _ _ _ Ha Hb). destruct (negb _); [constructor|].
    rewrite (RV_length _ _ Ha). destruct (nbits a') as [|n] eqn:E; [constructor|].
    rewrite of_int_zero by lia. rewrite !zext_some.
    apply RV_slice. apply RV_mul_loop; auto using RV_repeat; apply RV_app; auto using RV_repeat.
  Qed.
  Lemma RV_smulh a b a' b' : RV a a' -> RV b b' -> opt_rel RV (smulh a b) (smulh a' b').
  Proof.
    intros Ha Hb. unfold smulh, mulh. destruct (same_width a' b') eqn:W; rewrite (RV_same _ _ _ _ Ha Hb), W; cbn [negb]; [|constructor].
    rewrite (RV_length _ _ Ha). destruct (nbits a') as [|n] eqn:E; [constructor|].
    rewrite of_int_zero by lia. rewrite !sext_some.
    assert (a <> []) by (intros ->; inversion Ha; subst; discriminate).
    assert (b <> []).
    { intros ->. inversion Hb; subst. unfold same_width in W. rewrite E in W. discriminate. }
    apply RV_slice. apply RV_mul_loop; auto using RV_repeat; apply RV_app; auto; apply RV_repeat2; now apply R_sign.
  Qed.
End Rel.

(** soundness: one side fully known, agreeing with the other on its known bits *)
Definition agrees (k a : bit) : Prop := exists c, k = known1 c /\ refines1 c a.
Lemma agrees_refines c v : Forall2 agrees (known c) v <-> refines c v.
Proof.
  unfold refines. split.
  - revert v. induction c as [|x c IH]; intros v H; inversion H; subst; constructor.
    + destruct H2 as (x' & E & ?). apply known1_inj in E. now subst.
    + now apply IH.
  - intros H. induction H; constructor; auto. exists x. auto.
Qed.
Lemma agrees0 : agrees B0 B0. Proof. now exists false. Qed.
Lemma agrees1 : agrees B1 B1. Proof. now exists true. Qed.
Lemma agrees_or a b c d : agrees a c -> agrees b d -> agrees (lor a b) (lor c d).
Proof.
  intros (x & -> & Hx) (y & -> & Hy). exists (x || y). rewrite lor_known. split; [reflexivity|].
  destruct c, d; simpl in *; subst; auto; try apply orb_true_r; try apply orb_true_l.
Qed.
Lemma agrees_and a b c d : agrees a c -> agrees b d -> agrees (land a b) (land c d).
Proof.
  intros (x & -> & Hx) (y & -> & Hy). exists (x && y). rewrite land_known. split; [reflexivity|].
  destruct c, d; simpl in *; subst; auto; try apply andb_false_r.
Qed.
Lemma agrees_xor a b c d : agrees a c -> agrees b d -> agrees (lxor a b) (lxor c d).
Proof.
  intros (x & -> & Hx) (y & -> & Hy). exists (xorb x y). rewrite lxor_known. split; [reflexivity|].
  destruct c, d; simpl in *; subst; auto.
Qed.
(** absence of undefined bits *)
Definition same_defined (a b : bit) : Prop := a = b /\ a <> BX.
Lemma defined_Forall2 v : is_defined v = true <-> Forall2 same_defined v v.
Proof.
  induction v as [|b v IH]; [split; constructor|]. simpl. rewrite andb_true_iff, IH. split.
  - intros [H1 H2]. constructor; [|assumption]. split; [reflexivity|]. now destruct b.
  - intros H. inversion H; subst. destruct H3 as [_ H3]. split; [now destruct b|assumption].
Qed.
Lemma sd_or a b c d : same_defined a c -> same_defined b d -> same_defined (lor a b) (lor c d).
Proof. intros [-> ?] [-> ?]. split; [reflexivity|]. destruct c, d; simpl; congruence. Qed.
Lemma sd_and a b c d : same_defined a c -> same_defined b d -> same_defined (land a b) (land c d).
Proof. intros [-> ?] [-> ?]. split; [reflexivity|]. destruct c, d; simpl; congruence. Qed.
Lemma sd_xor a b c d : same_defined a c -> same_defined b d -> same_defined (lxor a b) (lxor c d).
Proof. intros [-> ?] [-> ?]. split; [reflexivity|]. destruct c, d; simpl; congruence. Qed.

Lemma opt_rel_refines c o r : opt_rel (Forall2 agrees) c o -> c = Some (known r) ->
  exists v, o = Some v /\ refines r v.
Proof. intros H E. subst. inversion H; subst. exists b. split; [reflexivity|]. now apply agrees_refines. Qed.
Lemma opt_rel_refines1 c o r : opt_rel agrees c o -> c = Some (known1 r) ->
  exists v, o = Some v /\ refines1 r v.
Proof.
  intros H E. subst. inversion H; subst. exists b. split; [reflexivity|].
  match goal with K : agrees _ _ |- _ => destruct K as (x & E & Hx) end. apply known1_inj in E. now subst.
Qed.
Lemma opt_rel_defined c v : opt_rel (Forall2 same_defined) c c -> c = Some v -> is_defined v = true.
Proof. intros H ->. inversion H; subst. now apply defined_Forall2. Qed.

Lemma agrees_known k v : Forall2 agrees k v -> exists c, k = known c /\ refines c v.
Proof.
  intros H. induction H as [|x y k v (c & -> & Hc) H (l & -> & Hl)]; [exists []; split; [reflexivity|constructor]|].
  exists (c :: l). split; [reflexivity|]. now constructor.
Qed.
Lemma unary_sound op :
  (forall a b, a <> [] -> Forall2 agrees a b -> opt_rel (Forall2 agrees) (op a) (op b)) -> sound_unary op.
Proof.
  intros H a ca r Hne Hr He. assert (known ca <> []).
  { inversion Hr; subst; [congruence|discriminate]. }
  apply agrees_refines in Hr. destruct (H _ _ H0 Hr) as [|k v Hk]; [discriminate|]. injection He as ->.
  destruct (agrees_known _ _ Hk) as (c & -> & Hc). eauto.
Qed.
Lemma binary_sound op :
  (forall a b a' b', Forall2 agrees a a' -> Forall2 agrees b b' -> opt_rel (Forall2 agrees) (op a b) (op a' b')) -> sound_binary op.
Proof.
  intros H a b ca cb r _ _ Ha Hb He. apply agrees_refines in Ha, Hb.
  destruct (H _ _ _ _ Ha Hb) as [|k v Hk]; [discriminate|]. injection He as ->.
  destruct (agrees_known _ _ Hk) as (c & -> & Hc). eauto.
Qed.
Lemma compare_sound op :
  (forall a b a' b', Forall2 agrees a a' -> Forall2 agrees b b' -> opt_rel agrees (op a b) (op a' b')) -> sound_compare op.
Proof.
  intros H a b ca cb r _ _ Ha Hb He. apply agrees_refines in Ha, Hb.
  destruct (H _ _ _ _ Ha Hb) as [|k v Hk]; [discriminate|]. injection He as ->.
  destruct Hk as (c & -> & Hc). eauto.
Qed.
Lemma defined_spec v : defined v <-> Forall2 same_defined v v.
Proof.
  rewrite <- defined_Forall2. unfold defined, is_defined. rewrite forallb_forall. split.
  - intros H x Hx. destruct x; try reflexivity. contradiction.
  - intros H Hx. now apply H in Hx.
Qed.
Lemma binary_defined op :
  (forall a b a' b', Forall2 same_defined a a' -> Forall2 same_defined b b' -> opt_rel (Forall2 same_defined) (op a b) (op a' b')) ->
  keeps_defined op.
Proof.
  intros H a b r _ _ Ha Hb He. apply defined_spec in Ha, Hb. apply defined_spec.
  specialize (H _ _ _ _ Ha Hb). rewrite He in H. now inversion H.
Qed.
(** division keeps defined bits defined, although it is not sound *)
Lemma defined_app a b : defined (a ++ b) <-> defined a /\ defined b.
Proof. unfold defined. rewrite in_app_iff. tauto. Qed.
Lemma sd0 : same_defined B0 B0. Proof. split; [reflexivity|discriminate]. Qed.
Lemma sd1 : same_defined B1 B1. Proof. split; [reflexivity|discriminate]. Qed.
Lemma sub_defined : keeps_defined sub.
Proof. apply binary_defined. intros a b a' b' Ha Hb. now apply (RV_sub same_defined sd0 sd1 sd_or sd_and sd_xor). Qed.
Lemma udiv_loop_defined data d q r q' r' :
  r <> [] -> length d = length r -> defined data -> defined d -> defined q -> defined r ->
  udiv_loop data d q r = Some (q', r') -> defined q' /\ defined r'.
Proof.
  revert q r. induction data as [|x data IH]; intros q r Hne Hl Hd Hdv Hq Hr He; simpl in He.
  - injection He as <- <-. auto.
  - rewrite shl_some in He by assumption.
    set (r1 := set0 x _) in He.
    assert (length r1 = length r) as Hl1.
    { unfold r1. destruct r as [|y r]; [congruence|]. cbn [length]. rewrite Nat.min_l by lia. cbn [repeat app set0 length].
      rewrite firstn_length. cbn [length]. lia. }
    assert (r1 <> []) as Hne1 by (destruct r1; [destruct r; [congruence|discriminate]|discriminate]).
    assert (x <> BX) as Hx by (intros ->; apply Hd; now left).
    assert (defined data) as Hd' by (intros K; apply Hd; now right).
    assert (defined r1) as Hr1.
    { unfold r1. destruct r as [|y r]; [congruence|]. cbn [length]. rewrite Nat.min_l by lia. cbn [repeat app set0].
      intros [K|K]; [congruence|]. apply Hr. rewrite <- (firstn_skipn (S (length r) - 1) (y :: r)). apply in_or_app. now left. }
    destruct (uge r1 d) as [u|]; [|discriminate].
    assert (forall w, udiv_loop data d (w :: q) r1 = Some (q', r') -> w <> BX -> defined q' /\ defined r') as HN.
    { intros w H Hw. apply (IH (w :: q) r1); try assumption; [congruence|]. intros [K|K]; [congruence|now apply Hq]. }
    destruct u; try (eapply HN; [exact He|discriminate]).
    destruct (sub r1 d) as [r2|] eqn:S; [|discriminate].
    assert (defined r2) as Hr2.
    { apply (sub_defined r1 d); try assumption.
      destruct d; [destruct r; [congruence|discriminate]|discriminate]. }
    assert (length r2 = length r1) as Hl2.
    { unfold sub, add in S. destruct (negb _) eqn:W; [discriminate|]. injection S as <-.
      assert (length r1 = length (neg d)) as El.
      { unfold same_width, nbits in W. apply negb_false_iff, Nat.eqb_eq in W. exact W. }
      revert El. generalize (neg d) as e. generalize B0 as c. clear. induction r1 as [|z r1 IH]; intros c [|w e] H; try discriminate; [reflexivity|].
      simpl. rewrite IH by now injection H. reflexivity. }
    apply (IH (B1 :: q) r2); try assumption.
    + destruct r2; [destruct r1; [congruence|discriminate]|discriminate].
    + congruence.
    + intros [K|K]; [discriminate|now apply Hq].
Qed.
Lemma divide_defined a b q r : a <> [] -> defined a -> defined b -> divide a b = Some (q, r) -> defined q /\ defined r.
Proof.
  intros Ha Hda Hdb He. unfold divide, nbits in He. assert (0 < length a)%nat by (destruct a; [congruence|simpl; lia]).
  rewrite of_int_zero in He by assumption. destruct (same_width b a) eqn:W; [|discriminate]. cbn [negb] in He.
  apply udiv_loop_defined in He; auto.
  - destruct (length a); [lia|discriminate].
  - rewrite repeat_length. unfold same_width, nbits in W. now apply Nat.eqb_eq in W.
  - intros K. apply in_rev in K. now apply Hda.
  - intros [].
  - intros K. apply repeat_spec in K. discriminate.
Qed.
