(** FoldNAryExpression preserves the value of an n-ary expression. *)
From Coq Require Import ZArith List Bool Lia Setoid Morphisms.
From stdpp Require Import tactics base list list_numbers gmap.
From Verif.ScalarEvolution Require Import Model Spec Proofs Proofs2 Proofs3 Proofs4 Proofs5 Proofs6.
Local Open Scope Z_scope.

Lemma split_non_init_app : forall ops pre x post, split_non_init ops = Some (pre, x, post) -> ops = pre ++ x :: post.
Proof.
  induction ops as [|o ops IH]; simpl; intros pre x post H; [done|].
  destruct (is_init o).
  - destruct (split_non_init ops) as [[[p y] q]|]; [|done]. injection H as <- <- <-. simpl. f_equal. by apply IH.
  - by injection H as <- <- <-.
Qed.

Lemma fold_nary_loop_ind (P : list scev -> Prop) (f : scev -> scev -> option scev) :
  (forall pre x mid y post z, P (pre ++ x :: mid ++ y :: post) -> f x y = Some z -> P (pre ++ z :: mid ++ post)) ->
  forall n ops ops', P ops -> fold_nary_loop f n ops = Some ops' -> P ops'.
Proof.
  intros HP. induction n as [|n IH]; intros ops ops' Ho H; simpl in H.
  - destruct (split_non_init ops) as [[[pre x] post]|]; [|by injection H as <-].
    destruct (split_non_init post) as [[[pre' y] post']|]; [done|by injection H as <-].
  - destruct (split_non_init ops) as [[[pre x] post]|] eqn:E1; [|by injection H as <-].
    destruct (split_non_init post) as [[[pre' y] post']|] eqn:E2; [|by injection H as <-].
    destruct (f x y) as [z|] eqn:E; [|done].
    apply split_non_init_app in E1 as ->. apply split_non_init_app in E2 as ->.
    eapply IH; [|exact H]. eapply HP; eauto.
Qed.

(** The fuel (the number of operands) suffices. *)
Lemma split_non_init_length ops pre x post : split_non_init ops = Some (pre, x, post) ->
  length ops = S (length pre + length post).
Proof. intros ->%split_non_init_app. rewrite app_length. simpl. lia. Qed.
Lemma fold_nary_loop_total (P : scev -> Prop) f : (forall x y, P x -> P y -> exists z, f x y = Some z /\ P z) ->
  forall n ops, Forall P ops -> (length ops <= n)%nat -> exists ops', fold_nary_loop f n ops = Some ops' /\ Forall P ops'.
Proof.
  intros Hf. induction n as [|n IH]; intros ops HP Hn.
  - destruct ops; [|simpl in Hn; lia]. exists []. done.
  - simpl. destruct (split_non_init ops) as [[[pre x] post]|] eqn:E1; [|eauto].
    destruct (split_non_init post) as [[[pre' y] post']|] eqn:E2; [|eauto].
    pose proof (split_non_init_length _ _ _ _ E1). pose proof (split_non_init_length _ _ _ _ E2).
    apply split_non_init_app in E1 as ->. apply split_non_init_app in E2 as ->.
    apply Forall_app in HP as [P1 HP]. apply Forall_cons_1 in HP as [P2 HP].
    apply Forall_app in HP as [P3 HP]. apply Forall_cons_1 in HP as [P4 P5].
    destruct (Hf x y P2 P4) as (z & -> & Pz). apply IH.
    + apply Forall_app; split; [done|]. constructor; [done|]. apply Forall_app; done.
    + rewrite app_length. simpl. rewrite app_length. rewrite app_length in Hn. simpl in Hn. lia.
Qed.

(** After folding at most one operand is not an initial value. *)
Definition others (ops : list scev) := filter (fun s => is_init s = false) ops.
Lemma split_others ops : match split_non_init ops with
  | None => others ops = []
  | Some (_, x, post) => others ops = x :: others post end.
Proof.
  induction ops as [|o ops IH]; [done|]. simpl. unfold others in *. rewrite filter_cons.
  destruct (is_init o) eqn:E.
  - rewrite decide_False by done. destruct (split_non_init ops) as [[[p y] q]|]; done.
  - rewrite decide_True by done. done.
Qed.
Lemma fold_nary_loop_others f : forall n ops ops', fold_nary_loop f n ops = Some ops' ->
  (length (others ops') <= 1)%nat.
Proof.
  assert (B : forall ops, match split_non_init ops with None => True
    | Some (_, _, post) => split_non_init post = None end -> (length (others ops) <= 1)%nat).
  { intros ops H. pose proof (split_others ops) as S1. destruct (split_non_init ops) as [[[p y] q]|].
    - pose proof (split_others q) as S2. rewrite H in S2. rewrite S1, S2. done.
    - by rewrite S1; simpl; lia. }
  induction n as [|n IH]; intros ops ops' H; simpl in H.
  - destruct (split_non_init ops) as [[[pre x] post]|] eqn:E1; [|injection H as <-; apply B; by rewrite E1].
    destruct (split_non_init post) as [[[pre' y] post']|] eqn:E2; [done|injection H as <-; apply B; by rewrite E1].
  - destruct (split_non_init ops) as [[[pre x] post]|] eqn:E1; [|injection H as <-; apply B; by rewrite E1].
    destruct (split_non_init post) as [[[pre' y] post']|] eqn:E2; [|injection H as <-; apply B; by rewrite E1].
    destruct (f x y) as [z|]; [|done]. by eapply IH.
Qed.

Lemma term_good L s : term L s -> good s.
Proof. intros [H|(o & ops & -> & N & F)]; [by apply flat_good|by apply flat_chrec_good]. Qed.

Lemma chrec_flat_mul n ops other out rs : ops <> [] -> Forall flat ops -> flat other ->
  collect (map (fun o => mul_fold n o other out) ops) = Some rs -> rs <> [] /\ Forall flat rs.
Proof.
  intros N F Fo E. destruct (collect_flat n ops other rs _ (mul_fold_flat n)
    (fun o r Ho Er => mul_fold_flat n o other r out
       (proj1 (List.Forall_forall _ _) F o (proj1 (elem_of_list_In _ _) Ho)) Fo Er) N E) as (? & ? & _).
  done.
Qed.
Lemma mul_term L n : forall l r s out, term L l -> term L r -> mul_fold n l r out = Some s -> term L s.
Proof.
  destruct n as [|n]; intros l r s out Tl Tr H; [done|].
  destruct Tl as [Fl|(lo & lops & -> & Nl & Fl)], Tr as [Fr|(ro & rops & -> & Nr & Fr)].
  - left. apply (mul_fold_flat _ _ _ _ _ Fl Fr H).
  - rewrite mul_unfold in H. unfold mul_F in H.
    assert (C : match collect (map (fun o => mul_fold n o l out) rops) with
               | Some ops' => Some (Chrec L out ops') | None => None end = Some s -> term L s).
    { intros Hc. destruct (collect _) as [rs|] eqn:E; [|done]. injection Hc as <-.
      apply chrec_flat_mul in E as [E1 E2]; try done. right. eauto. }
    destruct l as [|o|o|c|l1 l2|l1 l2|L' lo lops|aops|mops]; try done; simpl in H;
      first [by apply C|by injection H as <-; left|idtac].
    + destruct c as [|[c|c|]|]; try (by apply C); injection H as <-; [by left|right; eauto].
  - rewrite mul_unfold in H. unfold mul_F in H.
    assert (C : match collect (map (fun o => mul_fold n o r out) lops) with
               | Some ops' => Some (Chrec L out ops') | None => None end = Some s -> term L s).
    { intros Hc. destruct (collect _) as [rs|] eqn:E; [|done]. injection Hc as <-.
      apply chrec_flat_mul in E as [E1 E2]; try done. right. eauto. }
    destruct r as [|o|o|c|l1 l2|l1 l2|L' ro rops|aops|mops]; try done; simpl in H;
      first [by apply C|by injection H as <-; left|idtac].
    + destruct c as [|[c|c|]|]; try (by apply C); injection H as <-; [by left|right; eauto].
  - apply mul_chrecs in H as (n' & l' & o' & r & -> & Ep).
    apply product_flat in Ep as (-> & N & F & _); try done. right. eauto.
Qed.

Section Width.
Context {wd : nat} (Hw : (wd <= 64)%nat).
Notation eq64 := (eqw wd).

Lemma fold_nadd pt n out ops ops' vs :
  Forall algebraic ops -> Forall2 (denotes wd pt) ops vs ->
  fold_nary_loop (fun x y => Some (ApplyAddFolding (Some x) (Some y) out)) n ops = Some ops' ->
  exists ws, Forall2 (denotes wd pt) ops' ws /\ eq64 (sum ws) (sum vs).
Proof using Hw.
  intros A D H.
  apply (fold_nary_loop_ind (fun ops => Forall algebraic ops /\
     exists ws, Forall2 (denotes wd pt) ops ws /\ eq64 (sum ws) (sum vs))) in H.
  - apply H.
  - clear -Hw. intros pre x mid y post z (A & ws & D & E) Hz. injection Hz as <-.
    apply Forall_app in A as [A1 A]. apply Forall_cons_1 in A as [A2 A].
    apply Forall_app in A as [A3 A]. apply Forall_cons_1 in A as [A4 A5]. split.
    { apply Forall_app. split; [done|]. constructor.
      - unfold ApplyAddFolding. by apply add_fold_algebraic.
      - apply Forall_app. done. }
    apply Forall2_app_inv_l in D as (w1 & w2 & D1 & D & ->).
    apply Forall2_cons_inv_l in D as (vx & w3 & Dx & D & ->).
    apply Forall2_app_inv_l in D as (w4 & w5 & D4 & D & ->).
    apply Forall2_cons_inv_l in D as (vy & w6 & Dy & D & ->).
    exists (w1 ++ (vx + vy) :: w4 ++ w6). split.
    + apply Forall2_app; [done|]. constructor; [|by apply Forall2_app].
      unfold ApplyAddFolding. by apply add_fold_sound.
    + rewrite <- E. apply eq64_of_eq. rewrite !sum_app. unfold sum. simpl. fold (sum (w4 ++ w6)).
      fold (sum (w4 ++ vy :: w6)). rewrite !sum_app. unfold sum. simpl. lia.
  - split; [done|]. exists vs. split; [done|reflexivity].
Qed.
Lemma fold_nmul pt fuel n out ops ops' vs L :
  Forall (term L) ops -> Forall2 (denotes wd pt) ops vs ->
  fold_nary_loop (fun x y => mul_fold fuel x y out) n ops = Some ops' ->
  exists ws, Forall2 (denotes wd pt) ops' ws /\ eq64 (prod ws) (prod vs).
Proof using Hw.
  intros A D H.
  apply (fold_nary_loop_ind (fun ops => Forall (term L) ops /\
     exists ws, Forall2 (denotes wd pt) ops ws /\ eq64 (prod ws) (prod vs))) in H.
  - apply H.
  - clear -Hw. intros pre x mid y post z (A & ws & D & E) Hz.
    apply Forall_app in A as [A1 A]. apply Forall_cons_1 in A as [A2 A].
    apply Forall_app in A as [A3 A]. apply Forall_cons_1 in A as [A4 A5]. split.
    { apply Forall_app. split; [done|]. constructor.
      - by eapply mul_term in Hz.
      - apply Forall_app. done. }
    apply Forall2_app_inv_l in D as (w1 & w2 & D1 & D & ->).
    apply Forall2_cons_inv_l in D as (vx & w3 & Dx & D & ->).
    apply Forall2_app_inv_l in D as (w4 & w5 & D4 & D & ->).
    apply Forall2_cons_inv_l in D as (vy & w6 & Dy & D & ->).
    exists (w1 ++ (vx * vy) :: w4 ++ w6). split.
    + apply Forall2_app; [done|]. constructor; [|by apply Forall2_app].
      destruct (proj1 (mul_product_sound Hw pt fuel) x y z out) as [_ V]; try done; try (by eapply term_good).
      by apply V.
    + rewrite <- E. apply eq64_of_eq. rewrite !prod_app. unfold prod. simpl. fold (prod (w4 ++ w6)).
      fold (prod (w4 ++ vy :: w6)). rewrite !prod_app. unfold prod. simpl. ring.
  - split; [done|]. exists vs. split; [done|reflexivity].
Qed.
Lemma unwrap_nadd pt ops v : denotes wd pt (NAdd ops) v -> denotes wd pt (unwrap_single NAdd ops) v.
Proof using Type.
  clear Hw. destruct ops as [|o [|o' ops]]; try done. simpl. intros D. inversion D as [| | | | | | |ops vs ? F E|]; subst.
  inversion F as [|? w ? ? Dw F']; subst. inversion F'; subst. eapply denotes_eq64; [|exact Dw].
  rewrite E. apply eq64_of_eq. unfold sum. simpl. ring.
Qed.
Lemma unwrap_nmul pt ops v : denotes wd pt (NMul ops) v -> denotes wd pt (unwrap_single NMul ops) v.
Proof using Type.
  clear Hw. destruct ops as [|o [|o' ops]]; try done. simpl. intros D. inversion D as [| | | | | | | |ops vs ? F E]; subst.
  inversion F as [|? w ? ? Dw F']; subst. inversion F'; subst. eapply denotes_eq64; [|exact Dw].
  rewrite E. apply eq64_of_eq. unfold prod. simpl. ring.
Qed.
Lemma fold_nary_add pt fuel ops s out v : Forall algebraic ops -> denotes wd pt (NAdd ops) v ->
  FoldNAryExpression fuel (NAdd ops) out = Some s -> denotes wd pt s v.
Proof using Hw.
  intros A D H. unfold FoldNAryExpression in H. destruct (fold_nary_loop _ _ _) as [ops'|] eqn:E; [|done].
  injection H as <-. inversion D as [| | | | | | |ops0 vs ? F Ev|]; subst.
  destruct (fold_nadd _ _ _ _ _ _ A F E) as (ws & W & Ew). apply unwrap_nadd.
  econstructor; [exact W|]. by rewrite Ev, Ew.
Qed.
Lemma fold_nary_mul pt fuel ops s out v L : Forall (term L) ops -> denotes wd pt (NMul ops) v ->
  FoldNAryExpression fuel (NMul ops) out = Some s -> denotes wd pt s v.
Proof using Hw.
  intros A D H. unfold FoldNAryExpression in H. destruct (fold_nary_loop _ _ _) as [ops'|] eqn:E; [|done].
  injection H as <-. inversion D as [| | | | | | | |ops0 vs ? F Ev]; subst.
  destruct (fold_nmul _ _ _ _ _ _ _ _ A F E) as (ws & W & Ew). apply unwrap_nmul.
  econstructor; [exact W|]. by rewrite Ev, Ew.
Qed.
End Width.
