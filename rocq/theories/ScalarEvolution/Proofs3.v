(** Recurrences whose operands are loop-invariant: the folding rules lose nothing
    and terminate; correctness of the recurrences of loop variables. *)
From Coq Require Import ZArith List Bool Lia Setoid Morphisms.
From stdpp Require Import tactics base list list_numbers gmap.
From Verif.ScalarEvolution Require Import Model Spec Proofs Proofs2.
Local Open Scope Z_scope.

Definition oflat (s : option scev) : Prop := from_option flat True s.
Definition oknown (s : option scev) : Prop := from_option known True s.

Lemma flat_good s : flat s -> good s.
Proof.
  induction s using scev_ind'; simpl; try done.
  - intros [_ Hf%all_Forall]. apply good_nadd. eapply Forall_impl; [|intros x Hx; exact Hx].
    apply Forall_lookup_2. intros i x Hx. eapply Forall_lookup_1 in H; [|exact Hx]. apply H.
    by eapply Forall_lookup_1 in Hf.
  - intros Hf%all_Forall. unfold good. simpl. rewrite !all_Forall.
    split; apply Forall_lookup_2; intros i x Hx; eapply Forall_lookup_1 in H; try exact Hx;
      apply H; by eapply Forall_lookup_1 in Hf.
Qed.
Lemma flat_not_chrec s : flat s -> is_chrec s = false.
Proof. by destruct s. Qed.
Lemma flat_list_good ops : Forall flat ops -> Forall good ops.
Proof. intros H. eapply Forall_impl; [exact H|]. apply flat_good. Qed.
Lemma flat_chrec_good L o ops : ops <> [] -> Forall flat ops -> good (Chrec L o ops).
Proof.
  intros Hn Hf. apply good_chrec. split; [done|]. split; [by apply flat_list_good|].
  destruct (last ops) as [x|] eqn:E; [|done]. rewrite last_lookup in E.
  eapply Forall_lookup_1 in Hf; [|exact E]. apply flat_not_chrec in Hf. by rewrite Hf.
Qed.

Lemma fold_const_flat_known f c ops :
  (forall k, known (f (Const k))) -> known c ->
  Forall known (fold_const f c ops) <-> Forall known ops.
Proof.
  intros Hf Hc. induction ops as [|o ops IH]; simpl.
  - split; [done|]. intros _. by constructor.
  - assert (D : (exists k, o = Const k) \/ fold_const f c (o :: ops) = o :: fold_const f c ops).
    { destruct o; eauto. }
    destruct D as [[k ->]|E].
    + rewrite !Forall_cons. specialize (Hf k). simpl. tauto.
    + simpl in E. rewrite E, !Forall_cons. tauto.
Qed.
Lemma fold_const_nonempty f c ops : fold_const f c ops <> [].
Proof. destruct ops as [|[]]; simpl; done. Qed.

Ltac flatk := simpl; rewrite ?all_Forall in *; rewrite ?Forall_app, ?Forall_cons, ?Forall_nil; simpl;
      rewrite ?all_Forall.
Lemma app_nonempty {A} (l : list A) x : l ++ [x] <> [].
Proof. by destruct l. Qed.
Lemma app_nonempty_l {A} (l r : list A) : l <> [] -> l ++ r <> [].
Proof. by destruct l. Qed.

Lemma add_fold_flat out n l r : oflat l -> oflat r ->
  flat (add_fold n l r out).
Proof.
  destruct n as [|n]; intros Al Ar; [done|].
  destruct l as [[|o|o|c|l1 l2|l1 l2|L lo lops|aops|mops]|]; simpl in Al; try done;
  destruct r as [[|o'|o'|c'|r1 r2|r1 r2|L' ro rops|aops'|mops']|]; simpl in Ar; try done; simpl add_fold;
  try exact I; try done;
  try solve [lazymatch goal with
    | |- flat (if _ then _ else _) => fail
    | |- _ => flatk; try (split; [apply app_nonempty || apply app_nonempty_l || done|]); tauto end];
  try solve [destruct (_ =? 0); simpl; try done; rewrite ?all_Forall in *; try (split; [done|]); tauto].
  - destruct (_ =? 0); simpl; [done|]. split; [apply fold_const_nonempty|]. rewrite all_Forall in *.
    apply fold_const_Forall; [done| |apply Ar]. intros k _. by destruct n.
  - destruct (_ =? 0); simpl; [done|]. split; [apply fold_const_nonempty|]. rewrite all_Forall in *.
    apply fold_const_Forall; [done| |apply Al]. intros k _. by destruct n.
Qed.

Lemma add_fold_flat_known out n l r : (2 <= n)%nat -> oflat l -> oflat r ->
  (l <> None \/ r <> None) ->
  known (add_fold n l r out) <-> oknown l /\ oknown r.
Proof.
  destruct n as [|[|n]]; [lia|lia|]. intros _ Al Ar Hn.
  destruct l as [[|o|o|c|l1 l2|l1 l2|L lo lops|aops|mops]|]; simpl in Al; try done;
  destruct r as [[|o'|o'|c'|r1 r2|r1 r2|L' ro rops|aops'|mops']|]; simpl in Ar; try done; simpl;
  try tauto; try (by destruct Hn);
  try solve [lazymatch goal with
    | |- context [if _ then _ else _] => fail
    | |- _ => flatk; tauto end];
  try solve [destruct (_ =? 0); flatk; tauto].
  - destruct (c =? 0); [simpl; tauto|]. change (known (NAdd ?l)) with (fold_right and True (map known l)).
    rewrite all_Forall, fold_const_flat_known by done. rewrite all_Forall. tauto.
  - destruct (c' =? 0); [simpl; tauto|]. change (known (NAdd ?l)) with (fold_right and True (map known l)).
    rewrite all_Forall, fold_const_flat_known by done. rewrite all_Forall. tauto.
Qed.

Lemma pairwise_flat n lops rops out : Forall flat lops -> Forall flat rops ->
  Forall flat (pairwise n lops rops out).
Proof.
  intros. apply (pairwise_Forall flat flat); [|done|done]. intros x y Hx Hy _.
  by apply add_fold_flat.
Qed.
Lemma pairwise_known n lops rops out : (2 <= n)%nat -> Forall flat lops -> Forall flat rops ->
  Forall known (pairwise n lops rops out) <-> Forall known lops /\ Forall known rops.
Proof.
  intros Hn Fl Fr.
  assert (K : forall i, (i < Nat.max (length lops) (length rops))%nat ->
    known (add_fold n (lops !! i) (rops !! i) out) <-> oknown (lops !! i) /\ oknown (rops !! i)).
  { intros i Hi. apply add_fold_flat_known; [done| | |].
    - destruct (lops !! i) eqn:E; simpl; [|done]. exact (Forall_lookup_1 _ _ _ _ Fl E).
    - destruct (rops !! i) eqn:E; simpl; [|done]. exact (Forall_lookup_1 _ _ _ _ Fr E).
    - destruct (lops !! i) eqn:E; [by left|]. destruct (rops !! i) eqn:E'; [by right|].
      apply lookup_ge_None in E, E'. lia. }
  split.
  - intros H.
    assert (K' : forall i, (i < Nat.max (length lops) (length rops))%nat ->
      oknown (lops !! i) /\ oknown (rops !! i)).
    { intros i Hi. apply K; [done|]. eapply Forall_lookup_1; [exact H|]. by apply pairwise_lookup. }
    split; apply Forall_lookup_2; intros i x Hx.
    + destruct (K' i) as [A _]; [apply lookup_lt_Some in Hx; lia|]. by rewrite Hx in A.
    + destruct (K' i) as [_ A]; [apply lookup_lt_Some in Hx; lia|]. by rewrite Hx in A.
  - intros [Kl Kr]. apply Forall_lookup_2. intros i x Hx.
    assert (Hi : (i < Nat.max (length lops) (length rops))%nat).
    { apply lookup_lt_Some in Hx. by rewrite pairwise_length in Hx. }
    rewrite pairwise_lookup in Hx by done. injection Hx as <-. apply K; [done|]. split.
    + destruct (lops !! i) eqn:E; simpl; [|done]. exact (Forall_lookup_1 _ _ _ _ Kl E).
    + destruct (rops !! i) eqn:E; simpl; [|done]. exact (Forall_lookup_1 _ _ _ _ Kr E).
Qed.
Lemma add_chrecs2 L lo ro lops rops out : exists n, (2 <= n)%nat /\
  ApplyAddFolding (Some (Chrec L lo lops)) (Some (Chrec L ro rops)) out
  = Chrec L out (pairwise n lops rops out).
Proof. eexists. split; [|unfold ApplyAddFolding; apply add_chrecs]. simpl. lia. Qed.

(** * Multiplication of invariant operands *)
Definition flat_mul n := forall l r s out, flat l -> flat r -> mul_fold n l r out = Some s ->
  flat s /\ (known s <-> known l /\ known r).

Lemma collect_flat n ops other rs (f : scev -> option scev) : flat_mul n ->
  (forall o r, o ∈ ops -> f o = Some r -> flat r /\ (known r <-> known o /\ known other)) ->
  ops <> [] ->
  collect (map f ops) = Some rs ->
  rs <> [] /\ Forall flat rs /\ (Forall known rs <-> Forall known ops /\ known other).
Proof.
  intros _ H Hn E. apply collect_map in E. split; [by inversion E; subst|].
  assert (G : Forall flat rs /\ Forall2 (fun o r => known r <-> known o /\ known other) ops rs).
  { clear Hn. induction E as [|o r ops rs Hr E IH]; [done|].
    destruct (H o r) as [F K]; [left|done|]. destruct IH as [F' K'].
    { intros o' r' Hin. apply H. by right. }
    split; by constructor. }
  destruct G as [F K]. split; [done|]. clear -K Hn.
  assert (Forall known rs <-> Forall (fun o => known o /\ known other) ops) as ->.
  { clear Hn. induction K as [|o r ops rs Ho K IHK]; [split; constructor|].
    rewrite !Forall_cons, Ho, IHK. done. }
  rewrite Forall_and. destruct ops as [|o ops]; [done|]. rewrite (Forall_cons (fun _ => known other)).
  split; [tauto|]. intros [? Ho]. split; [done|]. split; [done|]. by apply Forall_true.
Qed.

Lemma mul_fold_flat n : flat_mul n.
Proof.
  induction n as [|n IH]; intros l r s out Fl Fr H; [done|].
  assert (Cna : forall ops other, flat (NAdd ops) -> flat other ->
    match collect (map (fun o => mul_fold n o other out) ops) with
    | Some ops' => Some (NAdd ops') | None => None end = Some s ->
    flat s /\ (known s <-> known (NAdd ops) /\ known other)).
  { clear -IH. intros ops other [Hn F%all_Forall] Fo H. destruct (collect _) as [rs|] eqn:E; [|done].
    injection H as <-.
    apply (collect_flat n _ other) in E as (N & F' & K); [|done| |done].
    - simpl. rewrite !all_Forall. done.
    - intros o r Hin Hm. eapply IH; [|done|exact Hm]. rewrite List.Forall_forall in F.
      apply F. by apply elem_of_list_In. }
  assert (Sw : forall x y, (flat s /\ (known s <-> known x /\ known y)) ->
     flat s /\ (known s <-> known y /\ known x)).
  { intros x y [A K]. split; [done|]. tauto. }
  assert (Ccm : forall c mops, flat (NMul mops) ->
     Some (if c =? 1 then NMul mops
              else NMul (fold_const (fun k => match k with
                                              | Const k => Const (wrap64 (k * c))
                                              | _ => Unknown end) (Const c) mops)) = Some s ->
     flat s /\ (known s <-> known (NMul mops) /\ known (Const c))).
  { clear. intros c mops F H. destruct (_ =? 1); injection H as <-.
    - split; [done|]. simpl. tauto.
    - simpl in *. rewrite !all_Forall in *. split; [by apply fold_const_Forall|].
      rewrite fold_const_flat_known by done. tauto. }
  destruct l as [|o|o|c|l1 l2|l1 l2|L lo lops|aops|mops]; simpl in Fl; try done;
  destruct r as [|o'|o'|c'|r1 r2|r1 r2|L' ro rops|aops'|mops']; simpl in Fr; try done;
  simpl in H;
  try solve [injection H as <-; split; [exact I|simpl; tauto]];
  try solve [first
    [ exact (Cna aops (Init o') Fl Fr H) | exact (Cna aops (Const c') Fl Fr H)
    | exact (Cna aops (NAdd aops') Fl Fr H) | exact (Cna aops (NMul mops') Fl Fr H)
    | exact (Sw _ _ (Cna aops' (Init o) Fr Fl H)) | exact (Sw _ _ (Cna aops' (Const c) Fr Fl H))
    | exact (Sw _ _ (Cna aops' (NMul mops) Fr Fl H))
    | exact (Ccm c' mops Fl H) | exact (Sw _ _ (Ccm c mops' Fr H)) ]];
  try solve [injection H as <-; flatk; try tauto];
  try solve [injection H as <-; destruct (_ =? 1); flatk; tauto].
Qed.

Lemma product_flat n : forall L lo ro lops rops l' o' ops' out,
  lops <> [] -> rops <> [] -> Forall flat lops -> Forall flat rops ->
  product n (L, lo, lops) (L, ro, rops) out = Some (l', o', ops') ->
  l' = L /\ ops' <> [] /\ Forall flat ops' /\ (Forall known ops' <-> Forall known lops /\ Forall known rops).
Proof.
  induction n as [|n IH]; intros L lo ro lops rops l' o' ops' out Nl Nr Fl Fr H; [done|].
  assert (G : forall X Y xo yo, Forall flat X -> Forall flat Y ->
    (2 <= length X)%nat -> (2 <= length Y)%nat ->
    product_step n L xo X yo Y out = Some (l', o', ops') ->
    l' = L /\ ops' <> [] /\ Forall flat ops' /\ (Forall known ops' <-> Forall known X /\ Forall known Y)).
  { clear -IH. intros X Y xo yo FX FY HX HY H. unfold product_step in H.
    assert (NX : X <> []) by (by destruct X; simpl in HX; [lia|]).
    assert (NY : Y <> []) by (by destruct Y; simpl in HY; [lia|]).
    destruct (step_recurrence_tail L xo X out (flat_chrec_good L xo X NX FX) HX) as (xo' & EX & _).
    destruct (step_recurrence_tail L yo Y out (flat_chrec_good L yo Y NY FY) HY) as (yo' & EY & _).
    rewrite EX, EY in H. simpl as_scev in H.
    destruct (add_chrecs2 L yo yo' Y (tail Y) out) as (m & Hm & Em). rewrite Em in H.
    simpl as_chrec in H.
    destruct (product n (L, xo, X) (L, yo', tail Y) out) as [[[l1 o1] r1]|] eqn:E1; [|done].
    destruct (product n (L, out, _) (L, xo', tail X) out) as [[[l2 o2] r2]|] eqn:E2; [|done].
    destruct X as [|a [|a' X]]; [done|simpl in HX; lia|]. destruct Y as [|b [|b' Y]]; [done|simpl in HY; lia|].
    simpl tail in *. pose proof (Forall_cons_1 _ _ _ FX) as [Fa FX']. pose proof (Forall_cons_1 _ _ _ FY) as [Fb FY'].
    apply IH in E1 as (-> & N1 & A1 & K1); [|done|done|done|done].
    apply IH in E2 as (-> & N2 & A2 & K2); [| |done|by apply pairwise_flat|done].
    2: { intros E. apply (f_equal length) in E. rewrite pairwise_length in E. simpl in E. lia. }
    simpl as_scev in H. destruct (add_chrecs2 L o1 o2 r1 r2 out) as (k & Hk & Ek). rewrite Ek in H.
    simpl in H. destruct (mul_fold n a b out) as [first|] eqn:Ef; [|done].
    injection H as <- <- <-. apply mul_fold_flat in Ef as [Ff Kf]; [|done|done].
    split; [done|]. split; [done|]. split; [constructor; [done|]; by apply pairwise_flat|].
    rewrite Forall_cons, pairwise_known by done. rewrite K1, K2, pairwise_known by done.
    rewrite Kf. rewrite (Forall_cons known a), (Forall_cons known b). tauto. }
  destruct lops as [|a lops]; [done|]. destruct rops as [|b rops]; [done|].
  destruct lops as [|a' lops].
  { cbn -[collect map] in H. destruct (collect _) as [rs|] eqn:E; [|done].
    injection H as <- <- <-. apply (collect_flat n _ a) in E as (? & ? & K); [|apply mul_fold_flat| |done].
    - split; [done|]. split; [done|]. split; [done|]. rewrite K. rewrite (Forall_cons known a), Forall_nil. tauto.
    - intros o r Hin Hm. apply mul_fold_flat in Hm as [? K]; [tauto|by apply Forall_cons_1 in Fl as [? _]|].
      rewrite List.Forall_forall in Fr. apply Fr. by apply elem_of_list_In. }
  destruct rops as [|b' rops].
  { cbn -[collect map] in H. destruct (collect _) as [rs|] eqn:E; [|done].
    injection H as <- <- <-. apply (collect_flat n _ b) in E as (? & ? & K); [|apply mul_fold_flat| |done].
    - split; [done|]. split; [done|]. split; [done|]. rewrite K. rewrite (Forall_cons known b), Forall_nil. tauto.
    - intros o r Hin Hm. apply mul_fold_flat in Hm as [? K]; [tauto| |by apply Forall_cons_1 in Fr as [? _]].
      rewrite List.Forall_forall in Fl. apply Fl. by apply elem_of_list_In. }
  assert (H' : (if decide (length (a :: a' :: lops) < length (b :: b' :: rops))%nat
     then product_step n L ro (b :: b' :: rops) lo (a :: a' :: lops) out
     else product_step n L lo (a :: a' :: lops) ro (b :: b' :: rops) out) = Some (l', o', ops')).
  { rewrite <- H. unfold product_step. cbn -[step_recurrence ApplyAddFolding].
    destruct (decide _); reflexivity. }
  clear H. destruct (decide _).
  - apply G in H' as (? & ? & ? & K); [|done|done|simpl; lia|simpl; lia].
    split; [done|]. split; [done|]. split; [done|]. tauto.
  - apply G in H'; [done|done|done|simpl; lia|simpl; lia].
Qed.
