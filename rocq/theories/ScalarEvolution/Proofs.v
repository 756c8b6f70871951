(** Soundness of the folding rules of scalar evolution. *)
From Coq Require Import ZArith List Bool Lia Setoid Morphisms.
From stdpp Require Import tactics base list list_numbers gmap.
From Verif.ScalarEvolution Require Import Model Spec.
Local Open Scope Z_scope.

(** * Arithmetic of w-bit values *)
Section Width.
Context {wd : nat}.
Notation eq64 := (eqw wd).

Lemma eq64_refl a : eq64 a a. Proof. exists 0. lia. Qed.
Lemma eq64_sym a b : eq64 a b -> eq64 b a.
Proof. intros [k ->]. exists (-k). lia. Qed.
Lemma eq64_trans a b c : eq64 a b -> eq64 b c -> eq64 a c.
Proof. intros [k ->] [k' ->]. exists (k + k'). lia. Qed.
Lemma eq64_add a b c d : eq64 a b -> eq64 c d -> eq64 (a + c) (b + d).
Proof. intros [k ->] [k' ->]. exists (k + k'). lia. Qed.
Lemma eq64_mul a b c d : eq64 a b -> eq64 c d -> eq64 (a * c) (b * d).
Proof. intros [k ->] [k' ->]. exists (k * d + b * k' + k * k' * 2 ^ Z.of_nat wd). ring. Qed.
Lemma eq64_opp a b : eq64 a b -> eq64 (- a) (- b).
Proof. intros [k ->]. exists (- k). lia. Qed.
#[export] Instance eq64_equiv : Equivalence eq64.
Proof. split; [exact eq64_refl | exact eq64_sym | exact eq64_trans]. Qed.
#[export] Instance eq64_add_proper : Proper (eq64 ==> eq64 ==> eq64) Z.add.
Proof. intros ?? H ?? H'. by apply eq64_add. Qed.
#[export] Instance eq64_mul_proper : Proper (eq64 ==> eq64 ==> eq64) Z.mul.
Proof. intros ?? H ?? H'. by apply eq64_mul. Qed.
#[export] Instance eq64_opp_proper : Proper (eq64 ==> eq64) Z.opp.
Proof. intros ?? H. by apply eq64_opp. Qed.
Lemma eq64_wrap z : (wd <= 64)%nat -> eq64 (wrap64 z) z.
Proof.
  intros Hw. unfold wrap64.
  exists (- ((z + 2 ^ 63) / 2 ^ 64) * 2 ^ (64 - Z.of_nat wd)).
  rewrite <- Z.mul_assoc, <- Z.pow_add_r by lia.
  replace (64 - Z.of_nat wd + Z.of_nat wd) with 64 by lia.
  pose proof (Z.div_mod (z + 2 ^ 63) (2 ^ 64)). lia.
Qed.
Lemma eq64_of_eq a b : a = b -> eq64 a b.
Proof. intros ->. reflexivity. Qed.
End Width.
#[global] Opaque eqw.
Section Width2.
Context {wd : nat}.
Notation eq64 := (eqw wd).

(** * Chain recurrences *)
Lemma sum_upto_ext f g n : (forall i, (i < n)%nat -> f i = g i) -> sum_upto f n = sum_upto g n.
Proof. induction n; simpl; intros H; [done|]. rewrite IHn, H; auto. Qed.
Lemma sum_upto_add f g n : sum_upto (fun i => f i + g i) n = sum_upto f n + sum_upto g n.
Proof. induction n; simpl; [done|]. rewrite IHn. ring. Qed.
Lemma sum_upto_scale a f n : sum_upto (fun i => a * f i) n = a * sum_upto f n.
Proof. induction n; simpl; [ring|]. rewrite IHn. ring. Qed.
Lemma sum_upto_eq64 f g n : (forall i, (i < n)%nat -> eq64 (f i) (g i)) ->
  eq64 (sum_upto f n) (sum_upto g n).
Proof. induction n; simpl; intros H; [reflexivity|]. rewrite IHn, H; auto. reflexivity. Qed.

Lemma crval_0 vs : crval vs 0 = nth 0 vs 0.
Proof. destruct vs; simpl; lia. Qed.
Lemma crval_S vs i : crval vs (S i) = crval vs i + crval (tail vs) i.
Proof. destruct vs; simpl; lia. Qed.
Lemma crval_eq64 vs ws i : Forall2 eq64 vs ws -> eq64 (crval vs i) (crval ws i).
Proof.
  intros H. revert i. induction H as [|v w vs ws Hv H IH]; intros i; simpl; [reflexivity|].
  rewrite Hv. rewrite (sum_upto_eq64 (crval vs) (crval ws)); [reflexivity|]. auto.
Qed.
Lemma crval_scale a vs i : crval (map (Z.mul a) vs) i = a * crval vs i.
Proof.
  revert i. induction vs as [|v vs IH]; intros i; simpl; [ring|].
  rewrite (sum_upto_ext _ (fun j => a * crval vs j)) by auto.
  rewrite sum_upto_scale. ring.
Qed.

Fixpoint padadd (vs ws : list Z) : list Z :=
  match vs, ws with
  | [], _ => ws
  | _, [] => vs
  | v :: vs, w :: ws => (v + w) :: padadd vs ws
  end.
Lemma padadd_nil_r vs : padadd vs [] = vs. Proof. by destruct vs. Qed.
Lemma padadd_length vs ws : length (padadd vs ws) = Nat.max (length vs) (length ws).
Proof. revert ws. induction vs; intros [|w ws]; simpl; auto. Qed.
Lemma padadd_nth vs ws i : nth i (padadd vs ws) 0 = nth i vs 0 + nth i ws 0.
Proof.
  revert ws i. induction vs as [|v vs IH]; intros [|w ws] [|i]; simpl; try lia. apply IH.
Qed.
Lemma crval_padadd vs ws i : crval (padadd vs ws) i = crval vs i + crval ws i.
Proof.
  revert ws i. induction vs as [|v vs IH]; intros [|w ws] i; simpl; try lia.
  rewrite (sum_upto_ext _ (fun j => crval vs j + crval ws j)) by auto.
  rewrite sum_upto_add. lia.
Qed.

(** The product rule: F*G starts with a0*b0 and its increment is F*g + G'*f. *)
Lemma crval_product a b vs ws zs xs :
  (forall i, crval xs i = crval (a :: vs) i * crval ws i) ->
  (forall i, crval zs i = (crval (b :: ws) i + crval ws i) * crval vs i) ->
  forall i, crval (a * b :: padadd xs zs) i = crval (a :: vs) i * crval (b :: ws) i.
Proof.
  intros Hx Hz i. induction i as [|i IH]; [simpl; ring|].
  rewrite crval_S, IH. simpl tail. rewrite crval_padadd, Hx, Hz.
  rewrite (crval_S (a :: vs)), (crval_S (b :: ws)). simpl tail. ring.
Qed.
Lemma crval_product64 a b vs ws zs xs :
  (forall i, eq64 (crval xs i) (crval (a :: vs) i * crval ws i)) ->
  (forall i, eq64 (crval zs i) ((crval (b :: ws) i + crval ws i) * crval vs i)) ->
  forall i, eq64 (crval (a * b :: padadd xs zs) i) (crval (a :: vs) i * crval (b :: ws) i).
Proof.
  intros Hx Hz i. induction i as [|i IH]; [simpl; apply eq64_of_eq; ring|].
  rewrite crval_S, IH. simpl tail. rewrite crval_padadd, Hx, Hz.
  rewrite (crval_S (a :: vs)), (crval_S (b :: ws)). simpl tail. apply eq64_of_eq. ring.
Qed.

Lemma sum_app vs ws : sum (vs ++ ws) = sum vs + sum ws.
Proof. induction vs; simpl; [done|]. unfold sum in *. simpl. rewrite IHvs. ring. Qed.
Lemma prod_app vs ws : prod (vs ++ ws) = prod vs * prod ws.
Proof. induction vs; unfold prod in *; simpl; [by destruct (fold_right _ _ _)|]. rewrite IHvs. ring. Qed.
Lemma sum_scale a vs : sum (map (Z.mul a) vs) = a * sum vs.
Proof. induction vs; unfold sum in *; simpl; [ring|]. rewrite IHvs. ring. Qed.

(** * Predicates on lists of terms *)
Lemma all_Forall {A} (P : A -> Prop) l : fold_right and True (map P l) <-> Forall P l.
Proof.
  induction l; simpl; [split; auto|]. rewrite IHl. split.
  - intros []. by constructor.
  - intros H. by apply Forall_cons_1 in H.
Qed.

Lemma scev_ind' (P : scev -> Prop) :
  P Unknown -> (forall o, P (Init o)) -> (forall o, P (Placeholder o)) -> (forall c, P (Const c)) ->
  (forall l r, P l -> P r -> P (AddE l r)) -> (forall l r, P l -> P r -> P (MulE l r)) ->
  (forall l o ops, Forall P ops -> P (Chrec l o ops)) ->
  (forall ops, Forall P ops -> P (NAdd ops)) -> (forall ops, Forall P ops -> P (NMul ops)) ->
  forall s, P s.
Proof.
  intros H1 H2 H3 H4 H5 H6 H7 H8 H9. fix IH 1. intros [| | | | | | l o ops | ops | ops].
  - apply H1. - apply H2. - apply H3. - apply H4.
  - apply H5; apply IH. - apply H6; apply IH.
  - apply H7. induction ops; constructor; [apply IH | assumption].
  - apply H8. induction ops; constructor; [apply IH | assumption].
  - apply H9. induction ops; constructor; [apply IH | assumption].
Qed.

Lemma denotes_eq64 pt s v w : eq64 v w -> denotes wd pt s w -> denotes wd pt s v.
Proof.
  intros E H. destruct H; econstructor; eauto; by rewrite E.
Qed.
#[export] Instance denotes_proper pt s : Proper (eq64 ==> iff) (denotes wd pt s).
Proof. intros v w E. split; apply denotes_eq64; [by symmetry|done]. Qed.

Definition odenotes pt (s : option scev) (v : Z) : Prop :=
  match s with Some s => denotes wd pt s v | None => eq64 v 0 end.
Definition oalgebraic (s : option scev) : Prop :=
  match s with Some s => algebraic s | None => True end.

Lemma lookup_odenotes pt ops vs i : Forall2 (denotes wd pt) ops vs ->
  odenotes pt (ops !! i) (nth i vs 0).
Proof.
  intros H. revert i. induction H; intros [|i]; simpl; try reflexivity; auto.
Qed.
Lemma lookup_oalgebraic ops i : Forall algebraic ops -> oalgebraic (ops !! i).
Proof.
  intros H. revert i. induction H; intros [|i]; simpl; auto.
Qed.

Lemma fold_const_sum pt f c ops vs cv : Forall2 (denotes wd pt) ops vs ->
  denotes wd pt (Const cv) cv ->
  denotes wd pt c cv ->
  (forall k kv, denotes wd pt (Const k) kv -> denotes wd pt (f (Const k)) (kv + cv)) ->
  exists ws, Forall2 (denotes wd pt) (fold_const f c ops) ws /\ eq64 (sum ws) (sum vs + cv).
Proof.
  intros H _ Hc Hf. induction H as [|o v ops vs Ho H IH]; simpl.
  - exists [cv]. split; [auto|]. simpl. apply eq64_of_eq. ring.
  - destruct IH as (ws & H1 & H2).
    assert (D : (exists k, o = Const k) \/ fold_const f c (o :: ops) = o :: fold_const f c ops).
    { destruct o; eauto. }
    destruct D as [[k ->] | E].
    + exists (v + cv :: vs). split; [constructor; auto|]. simpl. apply eq64_of_eq. ring.
    + simpl in E. rewrite E. exists (v :: ws). split; [by constructor|].
      simpl. rewrite H2. apply eq64_of_eq. ring.
Qed.
Lemma fold_const_prod pt f c ops vs cv : Forall2 (denotes wd pt) ops vs ->
  denotes wd pt c cv ->
  (forall k kv, denotes wd pt (Const k) kv -> denotes wd pt (f (Const k)) (kv * cv)) ->
  exists ws, Forall2 (denotes wd pt) (fold_const f c ops) ws /\ eq64 (prod ws) (prod vs * cv).
Proof.
  intros H Hc Hf. induction H as [|o v ops vs Ho H IH]; simpl.
  - exists [cv]. split; [auto|]. simpl. apply eq64_of_eq. ring.
  - destruct IH as (ws & H1 & H2).
    assert (D : (exists k, o = Const k) \/ fold_const f c (o :: ops) = o :: fold_const f c ops).
    { destruct o; eauto. }
    destruct D as [[k ->] | E].
    + exists (v * cv :: vs). split; [constructor; auto|]. simpl. apply eq64_of_eq. ring.
    + simpl in E. rewrite E. exists (v :: ws). split; [by constructor|].
      simpl. rewrite H2. apply eq64_of_eq. ring.
Qed.

End Width2.

Ltac den1 := lazymatch goal with
  | H : denotes _ _ (Const _) _ |- _ => inversion H; clear H; subst
  | H : denotes _ _ (Init _) _ |- _ => inversion H; clear H; subst
  | H : denotes _ _ (NAdd _) _ |- _ => inversion H; clear H; subst
  | H : denotes _ _ (NMul _) _ |- _ => inversion H; clear H; subst
  | H : denotes _ _ (Chrec _ _ _) _ |- _ => inversion H; clear H; subst
  end.
Ltac e64 := repeat match goal with H : eqw _ ?v _ |- _ => is_var v; rewrite H; clear H v end;
  apply eq64_of_eq; try (simpl; ring).

Section Width3.
Context {wd : nat}.
Notation eq64 := (eqw wd).
Lemma add_fold_sound pt out (Hw : (wd <= 64)%nat) : forall n l r vl vr,
  oalgebraic l -> oalgebraic r -> odenotes (wd:=wd) pt l vl -> odenotes (wd:=wd) pt r vr ->
  denotes wd pt (add_fold n l r out) (vl + vr).
Proof.
  induction n as [|n IH]; intros l r vl vr Al Ar Dl Dr; [constructor|].
  assert (Cother : forall cl co ops other cv ov, algebraic (Chrec cl co ops) ->
    denotes wd pt (Chrec cl co ops) cv -> oalgebraic other -> odenotes (wd:=wd) pt other ov ->
    denotes wd pt (match other with
        | Some (Const 0) => Chrec cl co ops
        | _ => Chrec cl out
                 (match ops with
                  | [] => []
                  | o :: ops => add_fold n (Some o) other out :: ops
                  end)
        end) (cv + ov)).
  { clear -IH Hw. intros cl co ops other cv ov [Hne Ha] Dc Ao Do.
    assert (G : denotes wd pt (Chrec cl out (match ops with
                  | [] => []
                  | o :: ops => add_fold n (Some o) other out :: ops end)) (cv + ov)).
    { apply all_Forall in Ha. destruct ops as [|o ops]; [done|].
      apply Forall_cons_1 in Ha as [Ha1 Ha2].
      inversion Dc as [| | | | | |? ? ? vs ? F E| |]; subst.
      inversion F as [|? v1 ? vs1 F1 F2]; subst. apply (D_chrec _ _ _ _ _ (v1 + ov :: vs1)).
      - constructor; [by apply IH|done].
      - rewrite E. apply eq64_of_eq. simpl. ring. }
    destruct other as [[]|]; try exact G.
    destruct c; try exact G. simpl in Do. inversion Do; subst.
    eapply denotes_eq64; [|exact Dc]. rewrite H0. apply eq64_of_eq. ring. }
  destruct l as [[]|]; simpl in Al; try done;
  destruct r as [[]|]; simpl in Ar; try done; simpl in Dl, Dr; simpl;
  (* unknown operands *)
  try solve [apply D_unknown];
  (* recurrence and another operand *)
  try solve [lazymatch goal with
    | Dl : denotes wd pt (Chrec _ _ _) vl, Dr : denotes wd pt (Chrec _ _ _) vr |- _ => fail
    | Dl : denotes wd pt (Chrec ?a ?b ?c) vl, Dr : denotes wd pt ?s vr |- _ =>
        exact (Cother a b c (Some s) vl vr Al Dl Ar Dr)
    | Dl : denotes wd pt ?s vl, Dr : denotes wd pt (Chrec ?a ?b ?c) vr |- _ =>
        rewrite Z.add_comm; exact (Cother a b c (Some s) vr vl Ar Dr Al Dl)
    | Dl : denotes wd pt (Chrec ?a ?b ?c) vl, Dr : eq64 vr 0 |- _ =>
        exact (Cother a b c None vl vr Al Dl Ar Dr)
    | Dl : eq64 vl 0, Dr : denotes wd pt (Chrec ?a ?b ?c) vr |- _ =>
        rewrite Z.add_comm; exact (Cother a b c None vr vl Ar Dr Al Dl)
    end];
  (* two operands that are appended, or one of which is null *)
  try solve [den1; den1; eapply (D_nadd _ _ _ [_; _]);
             [repeat (apply List.Forall2_cons); try apply List.Forall2_nil;
              econstructor; eauto; reflexivity | e64]];
  try solve [den1; econstructor; eauto; e64];
  try solve [den1; den1;
     match goal with F : Forall2 _ ?ops ?vs |- denotes _ _ (NAdd (?ops ++ [_])) _ =>
       eapply (D_nadd _ _ _ (vs ++ [_])) end;
     [apply Forall2_app; [eassumption|]; repeat constructor; eauto; econstructor; eauto; reflexivity
     | rewrite sum_app; e64]];
  try solve [den1; den1; destruct (_ =? 0) eqn:Ec;
     [apply Z.eqb_eq in Ec; subst; econstructor; eauto; e64
     |eapply (D_nadd _ _ _ [_; _]);
             [repeat (apply List.Forall2_cons); try apply List.Forall2_nil;
              econstructor; eauto; reflexivity | e64]]].
  - (* const const *)
    den1. den1. constructor. rewrite eq64_wrap by done. e64.
  - (* const + nadd *)
    destruct (_ =? 0) eqn:Ec; [apply Z.eqb_eq in Ec; subst; den1; den1; econstructor; eauto; e64|].
    inversion Dr as [| | | | | | |? vs ? F E|]; subst.
    inversion Dl as [| | |? ? E'| | | | |]; subst.
    destruct (fold_const_sum (wd:=wd) pt (fun k => add_fold n (Some k) (Some (Const c)) out) (Const c) ops vs vl)
      as (ws & W1 & W2); [done|by constructor|by constructor| |].
    { intros k kv Hk. apply IH; done. }
    econstructor; [exact W1|]. rewrite W2, E. apply eq64_of_eq. ring.
  - (* chrec + chrec *)
    destruct Al as [Al1 Al2], Ar as [Ar1 Ar2].
    inversion Dl as [| | | | | |? ? ? vs ? F E| |]; subst.
    inversion Dr as [| | | | | |? ? ? ws ? F' E'| |]; subst.
    case_decide as El.
    + subst. apply (D_chrec _ _ _ _ _ (padadd vs ws)).
      * apply Forall2_same_length_lookup. rewrite map_length, seq_length, padadd_length.
        rewrite (Forall2_length _ _ _ F), (Forall2_length _ _ _ F'). split; [done|].
        intros i x y Hx Hy. change (map ?f ?l) with (f <$> l) in Hx. rewrite list_lookup_fmap in Hx.
        destruct (seq 0 _ !! i) as [j|] eqn:Ej; [|done]. apply lookup_seq in Ej as [-> _].
        injection Hx as <-.
        assert (y = nth i vs 0 + nth i ws 0) as ->.
        { rewrite <- padadd_nth. symmetry. by apply nth_lookup_Some. }
        apply IH; try (apply lookup_oalgebraic; by apply all_Forall); by apply lookup_odenotes.
      * rewrite crval_padadd. rewrite E, E'. reflexivity.
    + apply (D_chrec _ _ _ _ _ [vl + vr]); [|simpl; apply eq64_of_eq].
      * repeat constructor. apply (D_nadd _ _ _ [vl; vr]); [|apply eq64_of_eq; simpl; ring].
        repeat constructor; econstructor; eauto.
      * clear. induction (iteration pt loop); simpl; lia.
  - (* nadd + const *)
    destruct (_ =? 0) eqn:Ec; [apply Z.eqb_eq in Ec; subst; den1; den1; econstructor; eauto; e64|].
    inversion Dl as [| | | | | | |? vs ? F E|]; subst.
    inversion Dr as [| | |? ? E'| | | | |]; subst.
    destruct (fold_const_sum (wd:=wd) pt (fun k => add_fold n (Some k) (Some (Const c)) out) (Const c) ops vs vr)
      as (ws & W1 & W2); [done|by constructor|by constructor| |].
    { intros k kv Hk. apply IH; done. }
    econstructor; [exact W1|]. rewrite W2, E. apply eq64_of_eq. ring.
  - (* nadd + nadd *)
    inversion Dl as [| | | | | | |? vs ? F E|]; subst.
    inversion Dr as [| | | | | | |? ws ? F' E'|]; subst.
    apply (D_nadd _ _ _ (vs ++ ws)); [by apply Forall2_app|]. rewrite sum_app, E, E'. reflexivity.
Qed.

Lemma collect_map (f : scev -> option scev) ops rs : collect (map f ops) = Some rs -> Forall2 (fun o r => f o = Some r) ops rs.
Proof.
  revert rs. induction ops as [|o ops IH]; simpl; intros rs H.
  - injection H as <-. constructor.
  - destruct (f o) as [x|] eqn:E; [|done]. destruct (collect _) as [r|]; [|done].
    injection H as <-. constructor; auto.
Qed.

(** The sum of two recurrences of one loop. *)
Definition pairwise n lops rops out :=
  map (fun i => add_fold n (lops !! i) (rops !! i) out)
      (seq 0 (Nat.max (length lops) (length rops))).
Lemma pairwise_length n lops rops out :
  length (pairwise n lops rops out) = Nat.max (length lops) (length rops).
Proof. unfold pairwise. by rewrite map_length, seq_length. Qed.
Lemma pairwise_lookup n lops rops out i : (i < Nat.max (length lops) (length rops))%nat ->
  pairwise n lops rops out !! i = Some (add_fold n (lops !! i) (rops !! i) out).
Proof.
  intros H. unfold pairwise. change (map ?f ?l) with (f <$> l). rewrite list_lookup_fmap.
  by rewrite lookup_seq_lt.
Qed.
Lemma pairwise_Forall (P : scev -> Prop) (Q : scev -> Prop) n lops rops out :
  (forall x y, from_option P True x -> from_option P True y -> (x <> None \/ y <> None) ->
     Q (add_fold n x y out)) ->
  Forall P lops -> Forall P rops -> Forall Q (pairwise n lops rops out).
Proof.
  intros H Fl Fr. apply Forall_lookup_2. intros i x Hx.
  assert (Hi : (i < Nat.max (length lops) (length rops))%nat).
  { apply lookup_lt_Some in Hx. by rewrite pairwise_length in Hx. }
  rewrite pairwise_lookup in Hx by done. injection Hx as <-. apply H.
  - destruct (lops !! i) eqn:E; simpl; [|done]. exact (Forall_lookup_1 _ _ _ _ Fl E).
  - destruct (rops !! i) eqn:E; simpl; [|done]. exact (Forall_lookup_1 _ _ _ _ Fr E).
  - destruct (lops !! i) eqn:E; [by left|]. destruct (rops !! i) eqn:E'; [by right|].
    apply lookup_ge_None in E, E'. lia.
Qed.
Lemma pairwise_denotes pt n lops rops vs ws out : (wd <= 64)%nat ->
  Forall algebraic lops -> Forall algebraic rops ->
  Forall2 (denotes wd pt) lops vs -> Forall2 (denotes wd pt) rops ws ->
  Forall2 (denotes wd pt) (pairwise n lops rops out) (padadd vs ws).
Proof.
  intros Hw Al Ar Dl Dr. apply Forall2_same_length_lookup.
  pose proof (Forall2_length _ _ _ Dl). pose proof (Forall2_length _ _ _ Dr).
  rewrite pairwise_length, padadd_length. split; [congruence|].
  intros i x y Hx Hy.
  assert (Hi : (i < Nat.max (length lops) (length rops))%nat).
  { apply lookup_lt_Some in Hx. by rewrite pairwise_length in Hx. }
  rewrite pairwise_lookup in Hx by done. injection Hx as <-.
  assert (y = nth i vs 0 + nth i ws 0) as ->.
  { rewrite <- padadd_nth. symmetry. by apply nth_lookup_Some. }
  apply add_fold_sound; [done| | | |]; try (by apply lookup_oalgebraic); by apply lookup_odenotes.
Qed.
Lemma add_chrecs n L lo ro lops rops out :
  add_fold (S n) (Some (Chrec L lo lops)) (Some (Chrec L ro rops)) out
  = Chrec L out (pairwise n lops rops out).
Proof. simpl. by rewrite decide_True. Qed.
Lemma add_chrecs' L lo ro lops rops out : exists n,
  ApplyAddFolding (Some (Chrec L lo lops)) (Some (Chrec L ro rops)) out
  = Chrec L out (pairwise n lops rops out).
Proof. eexists. unfold ApplyAddFolding. apply add_chrecs. Qed.

(** * Closure properties of addition *)
Lemma fold_const_Forall (P : scev -> Prop) f c ops :
  P c -> (forall k, P (Const k) -> P (f (Const k))) -> Forall P ops -> Forall P (fold_const f c ops).
Proof.
  intros Hc Hf H. induction H as [|o ops Ho H IH]; simpl; [by constructor|].
  destruct o; (constructor; [by auto|done]).
Qed.

Lemma add_fold_algebraic out : forall n l r, oalgebraic l -> oalgebraic r ->
  algebraic (add_fold n l r out).
Proof.
  induction n as [|n IH]; intros l r Al Ar; [done|].
  assert (Cother : forall cl co ops other, algebraic (Chrec cl co ops) -> oalgebraic other ->
    algebraic (match other with
        | Some (Const 0) => Chrec cl co ops
        | _ => Chrec cl out
                 (match ops with
                  | [] => []
                  | o :: ops => add_fold n (Some o) other out :: ops
                  end)
        end)).
  { clear -IH. intros cl co ops other [Hne Ha] Ao.
    assert (G : algebraic (Chrec cl out (match ops with
                  | [] => []
                  | o :: ops => add_fold n (Some o) other out :: ops end))).
    { destruct ops as [|o ops]; [done|]. destruct Ha as [Ha1 Ha2]. split; [done|].
      split; [by apply IH|done]. }
    destruct other as [[]|]; try exact G. destruct c; try exact G. done. }
  destruct l as [[|o|o|c|l1 l2|l1 l2|L lo lops|aops|mops]|]; simpl in Al; try done;
  destruct r as [[|o'|o'|c'|r1 r2|r1 r2|L' ro rops|aops'|mops']|]; simpl in Ar; try done; simpl add_fold;
  try exact I;
  try solve [first
    [ exact (Cother L lo lops (Some (Init o')) Al Ar) | exact (Cother L lo lops (Some (Const c')) Al Ar)
    | exact (Cother L lo lops (Some (NAdd aops')) Al Ar) | exact (Cother L lo lops (Some (NMul mops')) Al Ar)
    | exact (Cother L lo lops None Al Ar)
    | exact (Cother L' ro rops (Some (Init o)) Ar Al) | exact (Cother L' ro rops (Some (Const c)) Ar Al)
    | exact (Cother L' ro rops (Some (NAdd aops)) Ar Al) | exact (Cother L' ro rops (Some (NMul mops)) Ar Al)
    | exact (Cother L' ro rops None Ar Al)]];
  try solve [lazymatch goal with
    | |- algebraic (if _ then _ else _) => fail
    | |- _ => simpl; rewrite ?all_Forall in *; rewrite ?Forall_app, ?Forall_cons, ?Forall_nil;
      simpl; rewrite ?all_Forall; tauto end];
  try solve [destruct (_ =? 0); simpl; rewrite ?all_Forall in *; tauto].
  - destruct (_ =? 0); simpl; [done|]. rewrite all_Forall in *.
    apply fold_const_Forall; [done| |done]. intros k _. by apply IH.
  - case_decide; [|simpl; split; [done|]; tauto].
    destruct Al as [Al1 Al2], Ar as [Ar1 Ar2]. split.
    + destruct lops as [|x lops]; [done|]. simpl. by destruct (length rops).
    + rewrite all_Forall in *. apply (pairwise_Forall algebraic algebraic); [|done|done].
      intros x y Hx Hy _. apply IH; [by destruct x|by destruct y].
  - destruct (_ =? 0); simpl; [done|]. rewrite all_Forall in *.
    apply fold_const_Forall; [done| |done]. intros k _. by apply IH.
Qed.
End Width3.
