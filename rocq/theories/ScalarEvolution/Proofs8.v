(** Values of terms, closure of terms of one loop, structural equality. *)
From Coq Require Import ZArith List Bool Lia Setoid Morphisms.
From stdpp Require Import tactics base list list_numbers gmap.
From Verif.ScalarEvolution Require Import Model Spec Proofs Proofs2 Proofs3 Proofs4 Proofs5 Proofs6 Proofs7.
Local Open Scope Z_scope.

Fixpoint value (pt : point) (s : scev) : Z :=
  match s with
  | Unknown => 0
  | Init o => initial pt o
  | Placeholder o => current pt o
  | Const c => c
  | AddE l r => value pt l + value pt r
  | MulE l r => value pt l * value pt r
  | Chrec l o ops => crval (map (value pt) ops) (iteration pt l)
  | NAdd ops => sum (map (value pt) ops)
  | NMul ops => prod (map (value pt) ops)
  end.
Lemma value_unique wd pt s : known s -> forall v, denotes wd pt s v -> eqw wd v (value pt s).
Proof.
  induction s as [|o|o|c|l r IHl IHr|l r IHl IHr|L o ops IH|ops IH|ops IH] using scev_ind'; simpl; intros Hk v D; try done;
    try (by inversion D; subst).
  - inversion D as [| | | |? ? vl vr ? Dl Dr E| | | |]; subst. destruct Hk as [K1 K2].
    rewrite E. rewrite (IHl K1 _ Dl), (IHr K2 _ Dr). reflexivity.
  - inversion D as [| | | | |? ? vl vr ? Dl Dr E| | |]; subst. destruct Hk as [K1 K2].
    rewrite E. rewrite (IHl K1 _ Dl), (IHr K2 _ Dr). reflexivity.
  - inversion D as [| | | | | |? ? ? vs ? F E| |]; subst. rewrite E. apply crval_eq64.
    apply all_Forall in Hk. clear E D. induction F as [|s u ops vs Du F IHF]; simpl; constructor.
    + apply Forall_cons_1 in IH as [I1 _]. apply Forall_cons_1 in Hk as [K1 _]. auto.
    + apply Forall_cons_1 in IH as [_ I2]. apply Forall_cons_1 in Hk as [_ K2]. auto.
  - inversion D as [| | | | | | |? vs ? F E|]; subst. rewrite E. apply sum_eq64.
    apply all_Forall in Hk. clear E D. induction F as [|s u ops vs Du F IHF]; simpl; constructor.
    + apply Forall_cons_1 in IH as [I1 _]. apply Forall_cons_1 in Hk as [K1 _]. auto.
    + apply Forall_cons_1 in IH as [_ I2]. apply Forall_cons_1 in Hk as [_ K2]. auto.
  - inversion D as [| | | | | | | |? vs ? F E]; subst. rewrite E. apply prod_eq64.
    apply all_Forall in Hk. clear E D. induction F as [|s u ops vs Du F IHF]; simpl; constructor.
    + apply Forall_cons_1 in IH as [I1 _]. apply Forall_cons_1 in Hk as [K1 _]. auto.
    + apply Forall_cons_1 in IH as [_ I2]. apply Forall_cons_1 in Hk as [_ K2]. auto.
Qed.
Lemma value_denotes wd pt s : denotes wd pt s (value pt s).
Proof.
  induction s as [|o|o|c|l r IHl IHr|l r IHl IHr|L o ops IH|ops IH|ops IH] using scev_ind'; simpl.
  - constructor.
  - constructor; reflexivity.
  - constructor; reflexivity.
  - constructor; reflexivity.
  - econstructor; eauto; reflexivity.
  - econstructor; eauto; reflexivity.
  - econstructor; [|reflexivity]. induction IH; simpl; constructor; auto.
  - econstructor; [|reflexivity]. induction IH; simpl; constructor; auto.
  - econstructor; [|reflexivity]. induction IH; simpl; constructor; auto.
Qed.
Lemma not_denotes wd pt s v : known s -> ~ eqw wd v (value pt s) -> ~ denotes wd pt s v.
Proof. intros K H D. apply H. by apply value_unique. Qed.
Lemma eqw_neq wd a b : (a - b) mod 2 ^ Z.of_nat wd <> 0 -> ~ eqw wd a b.
Proof.
  Transparent eqw. intros H [k ->]. apply H.
  replace (b + k * 2 ^ Z.of_nat wd - b) with (k * 2 ^ Z.of_nat wd) by ring.
  apply Z.mod_mul. lia. Opaque eqw.
Qed.

(** * Addition and multiplication of terms of one loop *)
Lemma add_term L l r out : term L l -> term L r -> term L (ApplyAddFolding (Some l) (Some r) out).
Proof.
  intros [Fl|(lo & lops & -> & Nl & Fl)] [Fr|(ro & rops & -> & Nr & Fr)].
  - left. by apply add_fold_flat.
  - unfold ApplyAddFolding. set (k := (osize _ + osize _)%nat). simpl.
    destruct rops as [|x rops]; [done|]. apply Forall_cons_1 in Fr as [F1 F2].
    assert (C : term L (Chrec L out (add_fold k (Some x) (Some l) out :: rops))).
    { right. eexists _, _. split; [done|]. split; [done|]. constructor; [by apply add_fold_flat|done]. }
    destruct l as [|o|o|c|l1 l2|l1 l2|L' lo lops|aops|mops]; try done; simpl.
    + by left.
    + destruct c; try done. right. eexists _, _. split; [done|]. split; [done|]. by constructor.
  - unfold ApplyAddFolding. set (k := (osize _ + osize _)%nat). simpl.
    destruct lops as [|x lops]; [done|]. apply Forall_cons_1 in Fl as [F1 F2].
    assert (C : term L (Chrec L out (add_fold k (Some x) (Some r) out :: lops))).
    { right. eexists _, _. split; [done|]. split; [done|]. constructor; [by apply add_fold_flat|done]. }
    destruct r as [|o|o|c|l1 l2|l1 l2|L' ro rops|aops|mops]; try done; simpl.
    + by left.
    + destruct c; try done. right. eexists _, _. split; [done|]. split; [done|]. by constructor.
  - destruct (add_chrecs2 L lo ro lops rops out) as (n & Hn & ->). right. eexists _, _. split; [done|].
    split; [by apply pairwise_ne|by apply pairwise_flat].
Qed.
Lemma add_term_known L l r out : term L l -> term L r ->
  known (ApplyAddFolding (Some l) (Some r) out) <-> known l /\ known r.
Proof.
  assert (Two : forall a b : scev, (2 <= osize (Some a) + osize (Some b))%nat).
  { intros a b. destruct a, b; simpl; lia. }
  intros [Fl|(lo & lops & -> & Nl & Fl)] [Fr|(ro & rops & -> & Nr & Fr)].
  - unfold ApplyAddFolding. rewrite add_fold_flat_known; try done; [by specialize (Two l r); lia|by left].
  - unfold ApplyAddFolding. pose proof (Two l (Chrec L ro rops)) as Hk. set (k := (osize _ + osize _)%nat) in *. simpl.
    destruct rops as [|x rops]; [done|]. apply Forall_cons_1 in Fr as [F1 F2].
    assert (C : known (Chrec L out (add_fold k (Some x) (Some l) out :: rops)) <-> known l /\ known (Chrec L ro (x :: rops))).
    { rewrite !known_chrec, !Forall_cons. rewrite add_fold_flat_known; try done; [unfold oknown; simpl; tauto|by left]. }
    destruct l as [|o|o|c|l1 l2|l1 l2|L' lo lops|aops|mops]; try done; simpl.
    + split; [done|intros [? ?]; done].
    + destruct c; try done. simpl. tauto.
  - unfold ApplyAddFolding. pose proof (Two (Chrec L lo lops) r) as Hk. set (k := (osize _ + osize _)%nat) in *. simpl.
    destruct lops as [|x lops]; [done|]. apply Forall_cons_1 in Fl as [F1 F2].
    assert (C : known (Chrec L out (add_fold k (Some x) (Some r) out :: lops)) <-> known (Chrec L lo (x :: lops)) /\ known r).
    { rewrite !known_chrec, !Forall_cons. rewrite add_fold_flat_known; try done; [unfold oknown; simpl; tauto|by left]. }
    destruct r as [|o|o|c|l1 l2|l1 l2|L' ro rops|aops|mops]; try done; simpl.
    + split; [done|intros [? ?]; done].
    + destruct c; try done. simpl. tauto.
  - destruct (add_chrecs2 L lo ro lops rops out) as (n & Hn & ->). rewrite !known_chrec.
    by rewrite pairwise_known.
Qed.

Lemma mul_term_total L l r out : term L l -> term L r -> exists N, forall fuel, (N <= fuel)%nat ->
  exists s, mul_fold fuel l r out = Some s.
Proof.
  intros Tl Tr. cut (exists N s, mul_fold N l r out = Some s).
  { intros (N & s & E). exists N. intros fuel Hf. exists s. by eapply mul_mono. }
  destruct Tl as [Fl|(lo & lops & -> & Nl & Fl)], Tr as [Fr|(ro & rops & -> & Nr & Fr)].
  - exists (S (size l + size r)). by apply mul_flat_total; [..|lia].
  - exists (S (S (sum_list (map size rops) + size l))). rewrite mul_unfold. unfold mul_F. set (k := S _).
    destruct (collect_total (fun o => mul_fold k o l out) rops) as [rs E].
    { intros o Ho. apply mul_flat_total; [|done|].
      - rewrite List.Forall_forall in Fr. apply Fr. by apply elem_of_list_In.
      - apply sum_list_in in Ho. lia. }
    rewrite E. destruct l as [|o|o|c|l1 l2|l1 l2|L' lo lops|aops|mops]; try done; simpl; eauto.
    destruct c as [|[| |]|]; eauto.
  - exists (S (S (sum_list (map size lops) + size r))). rewrite mul_unfold. unfold mul_F. set (k := S _).
    destruct (collect_total (fun o => mul_fold k o r out) lops) as [rs E].
    { intros o Ho. apply mul_flat_total; [|done|].
      - rewrite List.Forall_forall in Fl. apply Fl. by apply elem_of_list_In.
      - apply sum_list_in in Ho. lia. }
    rewrite E. destruct r as [|o|o|c|l1 l2|l1 l2|L' ro rops|aops|mops]; try done; simpl; eauto.
    destruct c as [|[| |]|]; eauto.
  - by apply mul_chrecs_total.
Qed.

(** Multiplying by the constant zero may forget an unknown operand. *)
Lemma mul_term_known L fuel l r out s : term L l -> term L r -> mul_fold fuel l r out = Some s ->
  known l -> known r -> known s.
Proof.
  destruct fuel as [|n]; [done|].
  intros [Fl|(lo & lops & -> & Nl & Fl)] [Fr|(ro & rops & -> & Nr & Fr)] H Kl Kr.
  - by apply (mul_fold_flat _ _ _ _ _ Fl Fr H).
  - rewrite mul_unfold in H. unfold mul_F in H. simpl is_unknown in H.
    assert (C : match collect (map (fun o => mul_fold n o l out) rops) with
               | Some ops' => Some (Chrec L out ops') | None => None end = Some s -> known s).
    { intros Hc. destruct (collect _) as [rs|] eqn:E; [|done]. injection Hc as <-.
      apply known_chrec. apply known_chrec in Kr.
      eapply (collect_flat n rops l rs _ (mul_fold_flat n)); [|done|exact E|done].
      intros o r Ho Er. eapply mul_fold_flat; [|exact Fl|exact Er].
      rewrite List.Forall_forall in Fr. apply Fr. by apply elem_of_list_In. }
    destruct l as [|o|o|c|l1 l2|l1 l2|L' lo lops|aops|mops]; try done; simpl in H; try (by apply C).
    destruct c as [|[c|c|]|]; try (by apply C); by injection H as <-.
  - rewrite mul_unfold in H. unfold mul_F in H. simpl is_unknown in H.
    assert (C : match collect (map (fun o => mul_fold n o r out) lops) with
               | Some ops' => Some (Chrec L out ops') | None => None end = Some s -> known s).
    { intros Hc. destruct (collect _) as [rs|] eqn:E; [|done]. injection Hc as <-.
      apply known_chrec. apply known_chrec in Kl.
      eapply (collect_flat n lops r rs _ (mul_fold_flat n)); [|done|exact E|done].
      intros o q Ho Er. eapply mul_fold_flat; [|exact Fr|exact Er].
      rewrite List.Forall_forall in Fl. apply Fl. by apply elem_of_list_In. }
    destruct r as [|o|o|c|l1 l2|l1 l2|L' ro rops|aops|mops]; try done; simpl in H; try (by apply C).
    destruct c as [|[c|c|]|]; try (by apply C); by injection H as <-.
  - apply mul_chrecs in H as (n' & l' & o' & r & -> & Ep).
    apply product_flat in Ep as (-> & N & F & K); try done. apply known_chrec. apply K.
    by rewrite <- !(known_chrec L 0).
Qed.

(** * Self-dependencies *)
Lemma occurrences_mentions x t : occurrences x t = 0%nat <-> ~ mentions x t.
Proof.
  induction t as [|o|p|c|a IHa b IHb|a IHa b IHb|l1 o1 ops1|ops1|ops1]; simpl; try (by split; [intros _ []|]).
  - destruct (decide (p = x)); split; try done; tauto.
  - split; [intros H [?|?]; [apply IHa in H0|apply IHb in H0]; lia|]. intros H.
    assert (occurrences x a = 0%nat) by (apply IHa; tauto). assert (occurrences x b = 0%nat) by (apply IHb; tauto). lia.
  - split; [intros H [?|?]; [apply IHa in H0|apply IHb in H0]; lia|]. intros H.
    assert (occurrences x a = 0%nat) by (apply IHa; tauto). assert (occurrences x b = 0%nat) by (apply IHb; tauto). lia.
Qed.
Lemma dli (d : deps) p v : <[p := v]> d !! p = Some v.
Proof. apply lookup_insert. Qed.
Lemma dli_ne (d : deps) p x v : p <> x -> <[p := v]> d !! x = d !! x.
Proof. apply lookup_insert_ne. Qed.
Lemma dle x : (∅ : deps) !! x = None.
Proof. apply lookup_empty. Qed.
Lemma find_deps_other x t : forall op d, ~ mentions x t -> find_deps t op d !! x = d !! x.
Proof.
  induction t as [|o|p|c|a IHa b IHb|a IHa b IHb|l1 o1 ops1|ops1|ops1]; simpl; intros op d H; try done.
  - by apply dli_ne.
  - rewrite IHb, IHa by tauto. done.
  - rewrite IHb, IHa by tauto. done.
Qed.
Lemma find_deps_count x t : forall op d,
  (match find_deps t op d !! x with Some (c, _) => c | None => O end =
   match d !! x with Some (c, _) => c | None => O end + occurrences x t)%nat.
Proof.
  induction t as [|o|p|c|a IHa b IHb|a IHa b IHb|l1 o1 ops1|ops1|ops1]; simpl; intros op d; try lia.
  - destruct (decide (p = x)) as [->|].
    + rewrite dli. destruct (d !! x) as [[? ?]|]; lia.
    + rewrite dli_ne by done. lia.
  - rewrite IHb, IHa. lia.
  - rewrite IHb, IHa. lia.
Qed.
Lemma increment_once x t : increment_of x t -> occurrences x t = 1%nat.
Proof.
  induction t as [|o|p|c|a IHa b IHb|a IHa b IHb|l1 o1 ops1|ops1|ops1]; simpl; intros H; try done.
  - subst. by rewrite decide_True.
  - destruct H as [[H1 H2%occurrences_mentions]|[H1%occurrences_mentions H2]]; [rewrite (IHa H1)|rewrite (IHb H2)]; lia.
Qed.
Lemma increment_op x t : forall op d, increment_of x t ->
  exists c o, find_deps t op d !! x = Some (c, o) /\ (o = op \/ o = DAdd).
Proof.
  induction t as [|o|p|c|a IHa b IHb|a IHa b IHb|l1 o1 ops1|ops1|ops1]; simpl; intros op d H; try done.
  - subst. rewrite dli. eauto.
  - destruct H as [[H1 H2]|[H1 H2]].
    + rewrite find_deps_other by done. destruct (IHa DAdd d H1) as (c & o & E & Ho). exists c, o. split; [done|]. tauto.
    + destruct (IHb DAdd (find_deps a DAdd d) H2) as (c & o & E & Ho). exists c, o. split; [done|]. tauto.
Qed.
Lemma increment_self_dep x t : increment_of x t -> self_dep_ok x t = true.
Proof.
  intros H. unfold self_dep_ok. pose proof (find_deps_count x t DNone ∅) as C.
  destruct (increment_op x t DNone ∅ H) as (c & o & E & Ho). rewrite E in *. rewrite dle in C.
  rewrite (increment_once _ _ H) in C. simpl in C. subst c. destruct Ho; by subst.
Qed.
Lemma self_dep_once x t : self_dep_ok x t = true -> (occurrences x t <= 1)%nat.
Proof.
  intros H. unfold self_dep_ok in H. pose proof (find_deps_count x t DNone ∅) as C.
  rewrite dle in C. destruct (find_deps t DNone ∅ !! x) as [[c o]|]; [|lia].
  apply andb_prop in H as [H _]. apply Nat.eqb_eq in H. lia.
Qed.
Lemma plain_self_dep x t : ~ mentions x t -> self_dep_ok x t = true.
Proof. intros H. unfold self_dep_ok. by rewrite find_deps_other, dle. Qed.

(** * Structural equality *)
Fixpoint alleq (l r : list scev) : bool :=
  match l, r with
  | [], [] => true
  | x :: l, y :: r => StructurallyEqual x y && alleq l r
  | _, _ => false
  end.
Lemma streq_sound a : forall b, StructurallyEqual a b = true -> a = b.
Proof.
  assert (L : forall ops, Forall (fun a => forall b, StructurallyEqual a b = true -> a = b) ops ->
    forall ops', alleq ops ops' = true -> ops = ops').
  { induction 1 as [|x ops Hx H IH]; intros [|y ops'] E; simpl in E; try done.
    apply andb_prop in E as [E1 E2]. f_equal; auto. }
  induction a as [|o|o|c|l r IHl IHr|l r IHl IHr|l o ops IH|ops IH|ops IH] using scev_ind';
    intros [|o'|o'|c'|l' r'|l' r'|l' o' ops'|ops'|ops'] H; try done; simpl in H.
  - apply Nat.eqb_eq in H. by subst.
  - apply Z.eqb_eq in H. by subst.
  - apply andb_prop in H as [H1 H2]. f_equal; auto.
  - apply andb_prop in H as [H1 H2]. f_equal; auto.
  - apply andb_prop in H as [H H3]. apply andb_prop in H as [H1 H2].
    apply Nat.eqb_eq in H1, H2. subst. f_equal. by apply L.
  - f_equal. by apply L.
  - f_equal. by apply L.
Qed.
Lemma streq_refl a : closed a <-> StructurallyEqual a a = true.
Proof.
  assert (L : forall ops, Forall (fun a => closed a <-> StructurallyEqual a a = true) ops ->
    Forall closed ops <-> alleq ops ops = true).
  { induction 1 as [|x ops Hx H IH]; simpl; [split; done|]. rewrite Forall_cons, andb_true_iff. by rewrite Hx, IH. }
  induction a as [|o|o|c|l r IHl IHr|l r IHl IHr|l o ops IH|ops IH|ops IH] using scev_ind'; simpl; try done.
  - by rewrite Nat.eqb_refl.
  - by rewrite Z.eqb_refl.
  - by rewrite andb_true_iff, IHl, IHr.
  - by rewrite andb_true_iff, IHl, IHr.
  - rewrite all_Forall, !Nat.eqb_refl. simpl. by apply L.
  - rewrite all_Forall. by apply L.
  - rewrite all_Forall. by apply L.
Qed.
Lemma streq_iff a b : StructurallyEqual a b = true <-> a = b /\ closed a.
Proof.
  split.
  - intros H. pose proof (streq_sound _ _ H) as <-. split; [done|]. by apply streq_refl.
  - intros [<- H]. by apply streq_refl.
Qed.

(** * Unknown terms *)
Lemma isunknown_treeless s : treeless s -> IsUnknown s = false <-> known s.
Proof.
  induction s as [|o|o|c|l r IHl IHr|l r IHl IHr|l o ops IH|ops IH|ops IH] using scev_ind'; simpl; try done; intros T;
  apply all_Forall in T; rewrite all_Forall;
  (induction IH as [|x ops Hx H IH]; [done|]; apply Forall_cons_1 in T as [T1 T2];
   simpl; rewrite orb_false_iff, Forall_cons, (Hx T1), (IH T2); done).
Qed.
