(** Correctness of the chain recurrences of a loop. *)
From Coq Require Import ZArith List Bool Lia Setoid Morphisms.
From stdpp Require Import tactics base list list_numbers gmap.
From Verif.ScalarEvolution Require Import Model Spec Proofs Proofs2 Proofs3.
Local Open Scope Z_scope.

(** The value of an invariant term. *)
Fixpoint fval (ini : nat -> Z) (s : scev) : Z :=
  match s with
  | Init o => ini o
  | Const c => c
  | NAdd ops => sum (map (fval ini) ops)
  | NMul ops => prod (map (fval ini) ops)
  | _ => 0
  end.

Lemma known_chrec l o ops : known (Chrec l o ops) <-> Forall known ops.
Proof. simpl. apply all_Forall. Qed.

Section Width.
Context {wd : nat} (Hw : (wd <= 64)%nat).
Notation eq64 := (eqw wd).

Lemma flat_denotes pt s : flat s -> denotes wd pt s (fval (initial pt) s).
Proof using Type.
  clear Hw. induction s using scev_ind'; simpl; try done; try (by constructor).
  - intros [_ Hf%all_Forall]. apply (D_nadd _ _ _ (map (fval (initial pt)) ops)); [|reflexivity].
    induction ops as [|a ops IH]; [constructor|]. apply Forall_cons_1 in H as [H1 H2].
    apply Forall_cons_1 in Hf as [F1 F2]. simpl. constructor; auto.
  - intros Hf%all_Forall. apply (D_nmul _ _ _ (map (fval (initial pt)) ops)); [|reflexivity].
    induction ops as [|a ops IH]; [constructor|]. apply Forall_cons_1 in H as [H1 H2].
    apply Forall_cons_1 in Hf as [F1 F2]. simpl. constructor; auto.
Qed.
Lemma flat_list_denotes pt ops : Forall flat ops ->
  Forall2 (denotes wd pt) ops (map (fval (initial pt)) ops).
Proof using Type.
  clear Hw. induction 1; simpl; constructor; [by apply flat_denotes|done].
Qed.
Lemma sum_eq64 vs ws : Forall2 eq64 vs ws -> eq64 (sum vs) (sum ws).
Proof using Type. clear Hw. induction 1; unfold sum in *; simpl; [reflexivity|]. by rewrite H, IHForall2. Qed.
Lemma prod_eq64 vs ws : Forall2 eq64 vs ws -> eq64 (prod vs) (prod ws).
Proof using Type. clear Hw. induction 1; unfold prod in *; simpl; [reflexivity|]. by rewrite H, IHForall2. Qed.
Lemma flat_unique pt s v : flat s -> known s -> denotes wd pt s v -> eq64 v (fval (initial pt) s).
Proof using Type.
  clear Hw. revert v. induction s using scev_ind'; simpl; try done; intros v Hf Hk D; inversion D; subst; try done.
  - destruct Hf as [_ Hf]. apply all_Forall in Hf, Hk.
    match goal with E : eqw _ v _ |- _ => rewrite E end. apply sum_eq64.
    match goal with F : Forall2 _ ops vs |- _ => clear -H Hf Hk F; rename F into G end.
    revert vs G. induction ops as [|a ops IH]; intros vs G; inversion G; subst; [constructor|].
    apply Forall_cons_1 in H as [X1 X2]. apply Forall_cons_1 in Hf as [F1 F2].
    apply Forall_cons_1 in Hk as [K1 K2]. constructor; auto.
  - apply all_Forall in Hf, Hk.
    match goal with E : eqw _ v _ |- _ => rewrite E end. apply prod_eq64.
    match goal with F : Forall2 _ ops vs |- _ => clear -H Hf Hk F; rename F into G end.
    revert vs G. induction ops as [|a ops IH]; intros vs G; inversion G; subst; [constructor|].
    apply Forall_cons_1 in H as [X1 X2]. apply Forall_cons_1 in Hf as [F1 F2].
    apply Forall_cons_1 in Hk as [K1 K2]. constructor; auto.
Qed.
Lemma flat_list_unique pt ops vs : Forall flat ops -> Forall known ops -> Forall2 (denotes wd pt) ops vs ->
  Forall2 eq64 vs (map (fval (initial pt)) ops).
Proof using Type.
  clear Hw. intros F K D. induction D; simpl; [constructor|].
  apply Forall_cons_1 in F as [F1 F2]. apply Forall_cons_1 in K as [K1 K2]. constructor; [by apply flat_unique|auto].
Qed.

Definition crops ini ops i := crval (map (fval ini) ops) i.

Lemma crops_pairwise ini n a b out i : Forall flat a -> Forall flat b ->
  Forall known (pairwise n a b out) ->
  eq64 (crops ini (pairwise n a b out) i) (crops ini a i + crops ini b i).
Proof using Hw.
  intros Fa Fb K. pose (pt := Point (fun _ => 0%nat) ini (fun _ => 0)).
  pose proof (flat_list_denotes pt a Fa) as Da. pose proof (flat_list_denotes pt b Fb) as Db.
  pose proof (pairwise_denotes pt n a b _ _ out Hw
    (good_algebraic _ (flat_list_good _ Fa)) (good_algebraic _ (flat_list_good _ Fb)) Da Db) as D.
  apply flat_list_unique in D; [|by apply pairwise_flat|done].
  apply (crval_eq64 _ _ i) in D. unfold crops. simpl in D. rewrite <- D, crval_padadd. reflexivity.
Qed.
Lemma crops_product ini n L lo ro a b l' o' r out i : a <> [] -> b <> [] -> Forall flat a -> Forall flat b ->
  product n (L, lo, a) (L, ro, b) out = Some (l', o', r) -> Forall known r ->
  eq64 (crops ini r i) (crops ini a i * crops ini b i).
Proof using Hw.
  intros Na Nb Fa Fb E K. pose (pt := Point (fun _ => 0%nat) ini (fun _ => 0)).
  pose proof (flat_list_denotes pt a Fa) as Da. pose proof (flat_list_denotes pt b Fb) as Db.
  destruct (proj2 (mul_product_sound Hw pt n) _ _ _ _ _ _ _ _ _
    (flat_chrec_good L lo a Na Fa) (flat_chrec_good L ro b Nb Fb) E) as (_ & _ & _ & V).
  destruct (V _ _ Da Db) as (zs & Z1 & Z2).
  destruct (product_flat _ _ _ _ _ _ _ _ _ _ Na Nb Fa Fb E) as (_ & _ & Fr & _).
  apply flat_list_unique in Z1; [|done|done].
  apply (crval_eq64 _ _ i) in Z1. unfold crops. simpl in Z1. rewrite <- Z1. apply Z2.
Qed.

(** What the analysis keeps about recorded recurrences. *)
Definition recorded L ini val (K : gmap nat chrec) : Prop :=
  forall x l o ops, K !! x = Some (l, o, ops) ->
    l = L /\ ops <> [] /\ Forall flat ops /\
    (Forall known ops -> forall i, eq64 (val x i) (crops ini ops i)).

Lemma mul_chrecs n L lo ro a b out s : mul_fold n (Chrec L lo a) (Chrec L ro b) out = Some s ->
  exists n' l' o' r, s = Chrec l' o' r /\ product n' (L, lo, a) (L, ro, b) out = Some (l', o', r).
Proof using Type.
  clear Hw. destruct n; [done|]. simpl. rewrite decide_True by done.
  destruct (product n _ _ out) as [[[l' o'] r]|] eqn:E; [|done]. simpl. intros H. injection H as <-. eauto 10.
Qed.

Lemma step_plain fuel K L it ini val x : recorded L ini val K ->
  forall t l o ops, ~ mentions x t -> step_for fuel K L x t = Some (l, o, ops) ->
  l = L /\ ops <> [] /\ Forall flat ops /\
  (Forall known ops -> forall i v, denotes wd (point_at L it ini val i) t v -> eq64 v (crops ini ops i)).
Proof using Hw.
  intros HK. induction t as [|o|p|c|a IHa b IHb|a IHa b IHb|l1 o1 ops1|ops1|ops1]; intros l o' ops Hm H; simpl in H.
  1,2,7,8,9: injection H as <- <- <-; split; [done|]; split; [done|]; split; [by repeat constructor|];
      intros [[] _]%Forall_cons_1.
  - simpl in Hm. rewrite decide_False in H by done. destruct (K !! p) as [[[l2 o2] ops2]|] eqn:E.
    + injection H as <- <- <-. destruct (HK _ _ _ _ E) as (? & ? & ? & V).
      split; [done|]. split; [done|]. split; [done|]. intros Hk i v D. inversion D; subst.
      rewrite <- V by done. simpl in H3. done.
    + injection H as <- <- <-. split; [done|]. split; [done|]. split; [by repeat constructor|].
      intros [[] _]%Forall_cons_1.
  - injection H as <- <- <-. split; [done|]. split; [done|]. split; [by repeat constructor|].
    intros _ i v D. inversion D; subst. unfold crops. simpl map. by rewrite crval_single.
  - simpl in Hm. destruct (step_for fuel K L x a) as [[[la oa] opa]|] eqn:Ea; [|done].
    destruct (step_for fuel K L x b) as [[[lb ob] opb]|] eqn:Eb; [|done].
    destruct (IHa _ _ _ ltac:(tauto) eq_refl) as (-> & Na & Fa & Va).
    destruct (IHb _ _ _ ltac:(tauto) eq_refl) as (-> & Nb & Fb & Vb).
    simpl as_scev in H. destruct (add_chrecs2 L oa ob opa opb x) as (n & Hn & En). rewrite En in H.
    injection H as <- <- <-. split; [done|]. split.
    { intros E. apply (f_equal length) in E. rewrite pairwise_length in E. simpl in E.
      destruct opa; [done|]. simpl in E. destruct (length opb); simpl in E; lia. }
    split; [by apply pairwise_flat|]. intros Hk i v D. inversion D; subst.
    pose proof Hk as Hk'. apply pairwise_known in Hk' as [Ka Kb]; [|done|done|done].
    rewrite crops_pairwise by done. rewrite <- Va, <- Vb by eauto. done.
  - simpl in Hm. destruct (step_for fuel K L x a) as [[[la oa] opa]|] eqn:Ea; [|done].
    destruct (step_for fuel K L x b) as [[[lb ob] opb]|] eqn:Eb; [|done].
    destruct (IHa _ _ _ ltac:(tauto) eq_refl) as (-> & Na & Fa & Va).
    destruct (IHb _ _ _ ltac:(tauto) eq_refl) as (-> & Nb & Fb & Vb).
    simpl as_scev in H. destruct (mul_fold fuel _ _ x) as [s|] eqn:E; [|done].
    apply mul_chrecs in E as (n & l' & o2 & r & -> & E). simpl in H. injection H as <- <- <-.
    destruct (product_flat _ _ _ _ _ _ _ _ _ _ Na Nb Fa Fb E) as (-> & Nr & Fr & Kr).
    split; [done|]. split; [done|]. split; [done|]. intros Hk i v D. inversion D; subst.
    rewrite (crops_product _ _ _ _ _ _ _ _ _ _ _ _ Na Nb Fa Fb E Hk).
    apply Kr in Hk as [Ka Kb]. rewrite <- Va, <- Vb by eauto. done.
Qed.

Lemma step_increment fuel K L it ini val x : recorded L ini val K ->
  forall t l o ops, increment_of x t -> step_for fuel K L x t = Some (l, o, ops) ->
  l = L /\ Forall flat ops /\
  (Forall known ops -> forall i v, denotes wd (point_at L it ini val i) t v ->
     eq64 v (val x i + crops ini ops i)).
Proof using Hw.
  intros HK. induction t as [|o|p|c|a IHa b IHb|a IHa b IHb|l1 o1 ops1|ops1|ops1]; intros l o' ops Hi H;
    simpl in Hi; try done.
  - subst p. simpl in H. rewrite decide_True in H by done. injection H as <- <- <-.
    split; [done|]. split; [constructor|]. intros _ i v D. inversion D; subst. simpl in H0.
    rewrite H0. apply eq64_of_eq. unfold crops. simpl. ring.
  - simpl in H.
    destruct (step_for fuel K L x a) as [[[la oa] opa]|] eqn:Ea; [|done].
    destruct (step_for fuel K L x b) as [[[lb ob] opb]|] eqn:Eb; [|done].
    destruct Hi as [[Hi Hm]|[Hm Hi]].
    + destruct (IHa _ _ _ Hi eq_refl) as (-> & Fa & Va).
      destruct (step_plain _ _ _ it _ _ _ HK _ _ _ _ Hm Eb) as (-> & Nb & Fb & Vb).
      simpl as_scev in H. destruct (add_chrecs2 L oa ob opa opb x) as (n & Hn & En). rewrite En in H.
      injection H as <- <- <-. split; [done|].
      split; [by apply pairwise_flat|]. intros Hk i v D. inversion D; subst.
      pose proof Hk as Hk'. apply pairwise_known in Hk' as [Ka Kb]; [|done|done|done].
      rewrite crops_pairwise by done. rewrite <- Vb by eauto. rewrite Z.add_assoc.
      rewrite <- Va by eauto. done.
    + destruct (IHb _ _ _ Hi eq_refl) as (-> & Fb & Vb).
      destruct (step_plain _ _ _ it _ _ _ HK _ _ _ _ Hm Ea) as (-> & Na & Fa & Va).
      simpl as_scev in H. destruct (add_chrecs2 L oa ob opa opb x) as (n & Hn & En). rewrite En in H.
      injection H as <- <- <-. split; [done|].
      split; [by apply pairwise_flat|]. intros Hk i v D. inversion D; subst.
      pose proof Hk as Hk'. apply pairwise_known in Hk' as [Ka Kb]; [|done|done|done].
      rewrite crops_pairwise by done. rewrite <- Va by eauto.
      replace (val x i + (vl + crops ini opb i)) with (vl + (val x i + crops ini opb i)) by ring.
      rewrite <- Vb by eauto. done.
Qed.

Lemma chain_recurrence_recorded fuel K L it ini val e l o ops :
  recorded L ini val K -> K !! ev_output e = None ->
  match ev_start e with
  | Some _ => increment_of (ev_output e) (ev_tree e)
  | None => ~ mentions (ev_output e) (ev_tree e) end ->
  follows wd L it ini val e ->
  chain_recurrence fuel K L (ev_output e) (ev_start e) (ev_tree e) = Some (l, o, ops) ->
  l = L /\ ops <> [] /\ Forall flat ops /\
  (Forall known ops -> forall i, eq64 (val (ev_output e) i) (crops ini ops i)).
Proof using Hw.
  intros HK HN Hs Hf H. unfold chain_recurrence in H. rewrite HN in H. unfold follows in Hf.
  destruct (step_for fuel K L (ev_output e) (ev_tree e)) as [[[l1 o1] ops1]|] eqn:E; [|done].
  destruct (ev_start e) as [start|].
  - destruct Hf as [H0 HS].
    destruct (step_increment _ _ _ it _ _ _ HK _ _ _ _ Hs E) as (-> & F & V).
    set (s0 := match start with Some c => Const c | None => Init (ev_output e) end).
    assert (Es : l = L /\ ops = s0 :: ops1).
    { destruct start; injection H as <- <- <-; done. }
    destruct Es as [-> ->]. split; [done|]. split; [done|]. split.
    { constructor; [|done]. by destruct start. }
    intros [_ Hk]%Forall_cons_1 i. unfold crops. simpl map. induction i as [|i IH].
    + simpl. rewrite H0, Z.add_0_r. unfold s0. destruct start; reflexivity.
    + rewrite crval_S. simpl tail. rewrite <- IH. rewrite (V Hk i _ (HS i)). unfold crops. reflexivity.
  - injection H as <- <- <-.
    destruct (step_plain _ _ _ it _ _ _ HK _ _ _ _ Hs E) as (-> & N & F & V).
    split; [done|]. split; [done|]. split; [done|]. intros Hk i. apply V; [done|]. apply Hf.
Qed.

Lemma analyse_recorded fuel L it ini val order : forall K K',
  recorded L ini val K -> NoDup (map ev_output order) ->
  Forall (fun e => K !! ev_output e = None) order ->
  Forall (fun e => match ev_start e with
    | Some _ => increment_of (ev_output e) (ev_tree e)
    | None => ~ mentions (ev_output e) (ev_tree e) end) order ->
  Forall (follows wd L it ini val) order ->
  analyse fuel L order K = Some K' -> recorded L ini val K'.
Proof using Hw.
  induction order as [|e order IH]; intros K K' HK Hd HN Hs Hf H; simpl in H.
  - by injection H as <-.
  - destruct (chain_recurrence _ _ _ _ _ _) as [[[l o] ops]|] eqn:E; [|done].
    apply Forall_cons_1 in HN as [N1 N2]. apply Forall_cons_1 in Hs as [S1 S2].
    apply Forall_cons_1 in Hf as [F1 F2]. simpl in Hd.
    apply NoDup_cons in Hd as [D1 D2].
    pose proof (chain_recurrence_recorded _ _ _ it _ _ _ _ _ _ HK N1 S1 F1 E) as R.
    eapply IH; [| |  | | |exact H]; try done.
    + intros x l2 o2 ops2 Hx. destruct (decide (x = ev_output e)) as [->|Hne].
      * rewrite lookup_insert in Hx. injection Hx as <- <- <-. exact R.
      * rewrite lookup_insert_ne in Hx by done. by eapply HK.
    + apply List.Forall_forall. intros e' Hin. rewrite lookup_insert_ne.
      * rewrite List.Forall_forall in N2. auto.
      * intros Heq. apply D1. rewrite Heq. apply elem_of_list_In, in_map, Hin.
Qed.

Lemma crops_denotes pt L o ops v : Forall flat ops ->
  eq64 v (crops (initial pt) ops (iteration pt L)) -> denotes wd pt (Chrec L o ops) v.
Proof using Type.
  clear Hw. intros F E. econstructor; [by apply flat_list_denotes|exact E].
Qed.
End Width.
