(** Completeness of the analysis of a loop. *)
From Coq Require Import ZArith List Bool Lia Setoid Morphisms.
From stdpp Require Import tactics base list list_numbers gmap.
From Verif.ScalarEvolution Require Import Model Spec Proofs Proofs2 Proofs3 Proofs4 Proofs5.
Local Open Scope Z_scope.

(** With zero bits all values are equal. *)
Lemma eqw_0 a b : eqw 0 a b.
Proof. Transparent eqw. exists (a - b). simpl. lia. Opaque eqw. Qed.

Definition shaped L (K : gmap nat chrec) : Prop :=
  forall x l o ops, K !! x = Some (l, o, ops) -> l = L /\ ops <> [] /\ Forall flat ops /\ Forall known ops.
Lemma shaped_recorded L K : shaped L K -> recorded (wd := 0) L (fun _ => 0) (fun _ _ => 0) K.
Proof.
  intros H x l o ops E. destruct (H _ _ _ _ E) as (? & ? & ? & ?).
  split; [done|]. split; [done|]. split; [done|]. intros _ i. apply eqw_0.
Qed.

Lemma mul_chrecs_total L lo ro a b out : a <> [] -> b <> [] -> Forall flat a -> Forall flat b ->
  exists N s, mul_fold N (Chrec L lo a) (Chrec L ro b) out = Some s.
Proof.
  intros. destruct (product_total _ L lo ro a b out (le_n _)) as (N & c & E); try done.
  exists (S N). rewrite mul_unfold. unfold mul_F. simpl is_unknown. simpl orb. cbv iota.
  rewrite decide_True by done. rewrite E. eauto.
Qed.

Lemma step_plain_total K L x t : shaped L K ->
  over (fun p => p = x \/ is_Some (K !! p)) t -> ~ mentions x t ->
  exists N l o ops, (forall fuel, (N <= fuel)%nat -> step_for fuel K L x t = Some (l, o, ops)) /\
    Forall known ops.
Proof.
  intros HK. induction t as [|o|p|c|a IHa b IHb|a IHa b IHb|l1 o1 ops1|ops1|ops1]; intros Ho Hm; simpl in Ho; try done.
  - simpl in Hm. destruct Ho as [->|[[[l o] ops] E]]; [done|].
    exists 0%nat, l, o, ops. split.
    + intros fuel _. simpl. rewrite decide_False by done. by rewrite E.
    + by apply (HK _ _ _ _ E).
  - exists 0%nat, L, x, [Const c]. split; [done|]. by repeat constructor.
  - simpl in Hm. destruct Ho as [Oa Ob].
    destruct IHa as (Na & la & oa & opa & Ea & Ka); [done|tauto|].
    destruct IHb as (Nb & lb & ob & opb & Eb & Kb); [done|tauto|].
    assert (Ma : ~ mentions x a) by tauto. assert (Mb : ~ mentions x b) by tauto.
    destruct (step_plain (wd:=0) (Nat.le_0_l 64) _ _ _ (fun _ => 0%nat) _ _ _ (shaped_recorded _ _ HK) a _ _ _ Ma (Ea Na (le_n _)))
      as (-> & N1 & F1 & _).
    destruct (step_plain (wd:=0) (Nat.le_0_l 64) _ _ _ (fun _ => 0%nat) _ _ _ (shaped_recorded _ _ HK) b _ _ _ Mb (Eb Nb (le_n _)))
      as (-> & N2 & F2 & _).
    destruct (add_chrecs2 L oa ob opa opb x) as (n & Hn & En).
    exists (Na + Nb)%nat, L, x, (pairwise n opa opb x). split.
    + intros fuel Hf. simpl. rewrite Ea, Eb by lia. simpl as_scev. by rewrite En.
    + by apply pairwise_known.
  - simpl in Hm. destruct Ho as [Oa Ob].
    destruct IHa as (Na & la & oa & opa & Ea & Ka); [done|tauto|].
    destruct IHb as (Nb & lb & ob & opb & Eb & Kb); [done|tauto|].
    assert (Ma : ~ mentions x a) by tauto. assert (Mb : ~ mentions x b) by tauto.
    destruct (step_plain (wd:=0) (Nat.le_0_l 64) _ _ _ (fun _ => 0%nat) _ _ _ (shaped_recorded _ _ HK) a _ _ _ Ma (Ea Na (le_n _)))
      as (-> & N1 & F1 & _).
    destruct (step_plain (wd:=0) (Nat.le_0_l 64) _ _ _ (fun _ => 0%nat) _ _ _ (shaped_recorded _ _ HK) b _ _ _ Mb (Eb Nb (le_n _)))
      as (-> & N2 & F2 & _).
    destruct (mul_chrecs_total L oa ob opa opb x N1 N2 F1 F2) as (N & s & E).
    pose proof E as E'. apply mul_chrecs in E' as (n & l' & o' & r & -> & Ep).
    apply product_flat in Ep as (-> & Nr & Fr & Kr); try done.
    exists (Na + Nb + N)%nat, L, o', r. split.
    + intros fuel Hf. simpl. rewrite Ea, Eb by lia. simpl as_scev.
      by rewrite (mul_mono N fuel _ _ _ _ ltac:(lia) E).
    + by apply Kr.
Qed.
Lemma step_increment_total K L x t : shaped L K ->
  over (fun p => p = x \/ is_Some (K !! p)) t -> increment_of x t ->
  exists N l o ops, (forall fuel, (N <= fuel)%nat -> step_for fuel K L x t = Some (l, o, ops)) /\
    Forall known ops.
Proof.
  intros HK. induction t as [|o|p|c|a IHa b IHb|a IHa b IHb|l1 o1 ops1|ops1|ops1]; intros Ho Hi; simpl in Ho, Hi; try done.
  - subst p. exists 0%nat, L, x, []. split; [|constructor]. intros fuel _. simpl. by rewrite decide_True.
  - destruct Ho as [Oa Ob]. destruct Hi as [[Hi Hm]|[Hm Hi]].
    + destruct (IHa Oa Hi) as (Na & la & oa & opa & Ea & Ka).
      destruct (step_plain_total _ _ _ _ HK Ob Hm) as (Nb & lb & ob & opb & Eb & Kb).
      destruct (step_increment (wd:=0) (Nat.le_0_l 64) _ _ _ (fun _ => 0%nat) _ _ _ (shaped_recorded _ _ HK) a _ _ _ Hi (Ea Na (le_n _)))
        as (-> & F1 & _).
      destruct (step_plain (wd:=0) (Nat.le_0_l 64) _ _ _ (fun _ => 0%nat) _ _ _ (shaped_recorded _ _ HK) b _ _ _ Hm (Eb Nb (le_n _)))
        as (-> & N2 & F2 & _).
      destruct (add_chrecs2 L oa ob opa opb x) as (n & Hn & En).
      exists (Na + Nb)%nat, L, x, (pairwise n opa opb x). split.
      * intros fuel Hf. simpl. rewrite Ea, Eb by lia. simpl as_scev. by rewrite En.
      * by apply pairwise_known.
    + destruct (IHb Ob Hi) as (Nb & lb & ob & opb & Eb & Kb).
      destruct (step_plain_total _ _ _ _ HK Oa Hm) as (Na & la & oa & opa & Ea & Ka).
      destruct (step_increment (wd:=0) (Nat.le_0_l 64) _ _ _ (fun _ => 0%nat) _ _ _ (shaped_recorded _ _ HK) b _ _ _ Hi (Eb Nb (le_n _)))
        as (-> & F2 & _).
      destruct (step_plain (wd:=0) (Nat.le_0_l 64) _ _ _ (fun _ => 0%nat) _ _ _ (shaped_recorded _ _ HK) a _ _ _ Hm (Ea Na (le_n _)))
        as (-> & N1 & F1 & _).
      destruct (add_chrecs2 L oa ob opa opb x) as (n & Hn & En).
      exists (Na + Nb)%nat, L, x, (pairwise n opa opb x). split.
      * intros fuel Hf. simpl. rewrite Ea, Eb by lia. simpl as_scev. by rewrite En.
      * by apply pairwise_known.
Qed.

Lemma over_impl (P Q : nat -> Prop) t : (forall p, P p -> Q p) -> over P t -> over Q t.
Proof. intros H. induction t; simpl; auto; tauto. Qed.

Lemma chain_recurrence_total K L e : shaped L K -> K !! ev_output e = None ->
  over (fun p => p = ev_output e \/ is_Some (K !! p)) (ev_tree e) ->
  match ev_start e with
  | Some _ => increment_of (ev_output e) (ev_tree e)
  | None => ~ mentions (ev_output e) (ev_tree e) end ->
  exists N c, (forall fuel, (N <= fuel)%nat ->
    chain_recurrence fuel K L (ev_output e) (ev_start e) (ev_tree e) = Some c) /\
    shaped L (<[ ev_output e := c ]> K).
Proof.
  intros HK HN Ho Hs.
  assert (S : exists N l o ops, (forall fuel, (N <= fuel)%nat -> chain_recurrence fuel K L (ev_output e) (ev_start e) (ev_tree e) = Some (l, o, ops)) /\ Forall known ops).
  { unfold chain_recurrence. rewrite HN. destruct (ev_start e) as [start|].
    - destruct (step_increment_total _ _ _ _ HK Ho Hs) as (N & l & o & ops & E & Kn).
      exists N, l, o, ((match start with Some c => Const c | None => Init (ev_output e) end) :: ops). split.
      + intros fuel Hf. rewrite (E fuel Hf). by destruct start.
      + constructor; [by destruct start|done].
    - destruct (step_plain_total _ _ _ _ HK Ho Hs) as (N & l & o & ops & E & Kn).
      exists N, l, o, ops. split; [|done]. intros fuel Hf. by rewrite (E fuel Hf). }
  destruct S as (N & l & o & ops & E & Kn). exists N, (l, o, ops). split; [done|].
  destruct (chain_recurrence_recorded (wd:=0) (Nat.le_0_l 64) N K L (fun _ => 0%nat) (fun _ => 0) (fun _ _ => 0) e l o ops)
    as (-> & N1 & F1 & _); [by apply shaped_recorded|done|done| |by apply E|].
  - (* any execution follows the tree with zero bits *)
    assert (D : forall t i v, over (fun _ => True) t ->
      denotes 0 (point_at L (fun _ => 0%nat) (fun _ => 0) (fun _ _ => 0) i) t v).
    { induction t as [| | | |a IHa b IHb|a IHa b IHb| | |]; intros i v Hv; simpl in Hv; try done.
      - constructor. apply eqw_0. - constructor. apply eqw_0.
      - apply (D_add _ _ _ _ 0 0); [apply IHa; tauto|apply IHb; tauto|apply eqw_0].
      - apply (D_mul _ _ _ _ 0 0); [apply IHa; tauto|apply IHb; tauto|apply eqw_0]. }
    assert (Ht : over (fun _ => True) (ev_tree e)) by (by eapply over_impl; [|exact Ho]).
    unfold follows. destruct (ev_start e); [split; [apply eqw_0|]|]; intros i; by apply D.
  - intros x l2 o2 ops2 Hx. destruct (decide (x = ev_output e)) as [->|Hne].
    + rewrite lookup_insert in Hx. injection Hx as <- <- <-. done.
    + rewrite lookup_insert_ne in Hx by done. by eapply HK.
Qed.

Lemma analyse_total L order : forall K before, shaped L K ->
  (forall p, In p before <-> is_Some (K !! p)) ->
  NoDup (map ev_output order ++ before) -> in_order before order ->
  exists N K', (forall fuel, (N <= fuel)%nat -> analyse fuel L order K = Some K') /\ shaped L K' /\
    (forall p, is_Some (K !! p) \/ In p (map ev_output order) -> is_Some (K' !! p)).
Proof.
  induction order as [|e order IH]; intros K before HK HB Hd Ho.
  - exists 0%nat, K. split; [done|]. split; [done|]. intros p [?|[]]; done.
  - simpl in Ho, Hd. destruct Ho as (O1 & O2 & O3). apply NoDup_cons in Hd as [D1 D2].
    assert (HN : K !! ev_output e = None).
    { apply eq_None_not_Some. intros Hs. apply D1. apply elem_of_app. right.
      apply elem_of_list_In. by apply HB. }
    destruct (chain_recurrence_total K L e HK HN) as (N & c & E & HK').
    { eapply over_impl; [|exact O1]. intros p [?|?]; [by left|right]. by apply HB. } { done. }
    destruct (IH (<[ev_output e := c]> K) (ev_output e :: before) HK') as (N' & K' & E' & HK2 & HD).
    + intros p. simpl. destruct (decide (p = ev_output e)) as [->|Hne].
      * rewrite lookup_insert. split; [eauto|]. auto.
      * rewrite lookup_insert_ne by done. rewrite HB. split; [intros [?|?]; [congruence|done]|auto].
    + rewrite <- Permutation_middle. apply NoDup_cons. done.
    + done.
    + exists (N + N')%nat, K'. split; [|split; [done|]].
      * intros fuel Hf. simpl. rewrite E by lia. apply E'. lia.
      * intros p Hp. apply HD. simpl in Hp. destruct (decide (p = ev_output e)) as [->|Hne].
        -- left. rewrite lookup_insert. eauto.
        -- rewrite lookup_insert_ne by done. destruct Hp as [?|[?|?]]; [by left|congruence|by right].
Qed.

(** * Trees of expressions *)
Lemma wrap64_range c : - 2 ^ 63 <= c < 2 ^ 63 -> wrap64 c = c.
Proof. intros H. unfold wrap64. rewrite Z.mod_small; lia. Qed.

Lemma denotes_opp wd pt : (wd <= 64)%nat -> forall t v, denotes wd pt t v -> denotes wd pt (GetNegativeSCEV t) (- v).
Proof.
  intros Hw.
  assert (G : forall t v, denotes wd pt t v -> denotes wd pt (MulE (Const (-1)) t) (- v)).
  { intros t v D. apply (D_mul _ _ _ _ (-1) v); [by constructor; reflexivity|done|apply eq64_of_eq; ring]. }
  assert (M : forall c v w, denotes wd pt (Const c) v -> c = -1 -> eqw wd (v * w) (- w)).
  { intros c v w D ->. inversion D; subst. rewrite H0. apply eq64_of_eq. ring. }
  induction t as [|o|p|c|a IHa b IHb|a IHa b IHb|l1 o1 ops1|ops1|ops1]; intros v D; simpl; try (by apply G).
  - inversion D; subst. constructor. rewrite eq64_wrap by done. by rewrite H0.
  - inversion D; subst. apply (D_add _ _ _ _ (- vl) (- vr)); auto.
    rewrite H4. apply eq64_of_eq. ring.
  - inversion D as [| | | | |l r vl vr ? Da Db E| | |]; subst.
    assert (R : forall d, b = Const d -> d = -1 -> denotes wd pt a (- v)).
    { intros d -> Hd. rewrite E. eapply denotes_eq64; [|exact Da]. rewrite Z.mul_comm.
      rewrite (M d vr vl Db Hd). apply eq64_of_eq. ring. }
    destruct a; try (destruct b; try (by apply G); destruct (Z.eqb_spec c (-1)); [by eapply R|by apply G]).
    destruct (Z.eqb_spec c (-1)) as [->|].
    + rewrite E. eapply denotes_eq64; [|exact Db]. rewrite (M (-1) vl vr Da eq_refl). apply eq64_of_eq. ring.
    + destruct b; try (by apply G). destruct (Z.eqb_spec c0 (-1)); [by eapply R|by apply G].
Qed.

Lemma eqw_mod wd a : eqw wd (a mod 2 ^ Z.of_nat wd) a.
Proof.
  Transparent eqw. exists (- (a / 2 ^ Z.of_nat wd)).
  pose proof (Z.div_mod a (2 ^ Z.of_nat wd) ltac:(lia)). lia. Opaque eqw.
Qed.
Lemma eqw_small wd a b : eqw wd a b -> 0 <= a < 2 ^ Z.of_nat wd -> 0 <= b < 2 ^ Z.of_nat wd -> a = b.
Proof.
  Transparent eqw. intros [k E] Ha Hb. assert (k = 0) by nia. nia. Opaque eqw.
Qed.
Lemma eval_range wd env : forall e v, no_extension e -> eval wd e env = Some v -> 0 <= v < 2 ^ Z.of_nat wd.
Proof.
  induction e; simpl; intros v Hn H; try (injection H as <-; apply Z.mod_pos_bound; lia); try done;
    try (destruct (eval wd e1 env); [|done]; destruct (eval wd e2 env); [|done];
         try (injection H as <-; apply Z.mod_pos_bound; lia)).
  - destruct (_ <? _); [|done]. injection H as <-. apply Z.mod_pos_bound. lia.
  - auto.
Qed.

Lemma scev_of_const wd env : forall e c v, no_extension e -> literals wd e -> scev_of e = Const c ->
  eval wd e env = Some v -> v = c mod 2 ^ Z.of_nat wd /\ - 2 ^ (Z.of_nat wd - 1) <= c < 2 ^ (Z.of_nat wd - 1).
Proof.
  induction e as [p|k|l IHl r IHr|l IHl r IHr|l IHl r IHr|l IHl r IHr|s n e IH|e IH|];
    intros c v Hn Hl Hs H; simpl in *; try done.
  - injection Hs as ->. injection H as <-. done.
  - by destruct (scev_of r).
  - by apply IH.
Qed.
Lemma small_shift wd c : 0 <= c mod 2 ^ Z.of_nat wd < Z.of_nat wd ->
  - 2 ^ (Z.of_nat wd - 1) <= c < 2 ^ (Z.of_nat wd - 1) -> 0 <= c.
Proof.
  intros H1 H2. destruct (Z.le_gt_cases 0 c); [done|]. exfalso.
  assert (P : 2 ^ Z.of_nat wd = 2 * 2 ^ (Z.of_nat wd - 1)).
  { rewrite <- Z.pow_succ_r by lia. f_equal. lia. }
  assert (Q : Z.of_nat wd - 1 < 2 ^ (Z.of_nat wd - 1)) by (apply Z.pow_gt_lin_r; lia).
  rewrite <- (Z.mod_add c 1) in H1 by lia. rewrite Z.mod_small in H1; lia.
Qed.
Lemma scev_of_denotes wd pt : (wd <= 64)%nat -> forall e v, no_extension e -> literals wd e ->
  eval wd e (current pt) = Some v -> denotes wd pt (scev_of e) v.
Proof.
  intros Hw. induction e as [p|c|l IHl r IHr|l IHl r IHr|l IHl r IHr|l IHl r IHr|s n e IH|e IH|];
    intros v Hn Hl H; simpl in H, Hn, Hl; simpl scev_of; try done.
  - injection H as <-. constructor. apply eqw_mod.
  - injection H as <-. constructor. apply eqw_mod.
  - destruct (eval wd l _) as [a|]; [|done]. destruct (eval wd r _) as [b|]; [|done]. injection H as <-.
    apply (D_add _ _ _ _ a b); [apply IHl; [tauto..|done]|apply IHr; [tauto..|done]|apply eqw_mod].
  - destruct (eval wd l _) as [a|]; [|done]. destruct (eval wd r _) as [b|]; [|done]. injection H as <-.
    apply (D_add _ _ _ _ a (- b)); [apply IHl; [tauto..|done]|apply denotes_opp; [done|]; apply IHr; [tauto..|done]|apply eqw_mod].
  - destruct (eval wd l _) as [a|]; [|done]. destruct (eval wd r _) as [b|]; [|done]. injection H as <-.
    apply (D_mul _ _ _ _ a b); [apply IHl; [tauto..|done]|apply IHr; [tauto..|done]|apply eqw_mod].
  - destruct (eval wd l _) as [a|]; [|done]. destruct (eval wd r _) as [b|] eqn:Eb; [|done].
    destruct (Z.ltb_spec b (Z.of_nat wd)) as [Hb|]; [|done]. injection H as <-.
    specialize (IHl a (proj1 Hn) (proj1 Hl) eq_refl).
    destruct (scev_of r) eqn:Er; try (by constructor).
    destruct (scev_of_const _ _ _ _ _ (proj2 Hn) (proj2 Hl) Er Eb) as [-> Hc].
    assert (0 <= c mod 2 ^ Z.of_nat wd) by (apply Z.mod_pos_bound; lia).
    assert (C0 : 0 <= c) by (apply (small_shift wd); [lia|done]).
    assert (C1 : c mod 2 ^ Z.of_nat wd = c).
    { apply Z.mod_small. split; [done|]. apply (Z.lt_le_trans _ (2 ^ (Z.of_nat wd - 1))); [lia|].
      apply Z.pow_le_mono_r; lia. }
    rewrite C1 in *. assert (C2 : c mod 64 = c) by (apply Z.mod_small; lia).
    apply (D_mul _ _ _ _ a (2 ^ c)); [done| |apply eqw_mod]. constructor.
    rewrite eq64_wrap by done. rewrite C2. reflexivity.
  - by apply IH.
Qed.
