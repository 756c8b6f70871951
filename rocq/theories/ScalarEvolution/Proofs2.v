(** Soundness of multiplication of scalar evolutions. *)
From Coq Require Import ZArith List Bool Lia Setoid Morphisms.
From stdpp Require Import tactics base list list_numbers gmap.
From Verif.ScalarEvolution Require Import Model Spec Proofs.
Local Open Scope Z_scope.

Lemma add_fold_is_chrec n l r out : is_chrec (add_fold n l r out) = true ->
  from_option is_chrec false l = true \/ from_option is_chrec false r = true.
Proof.
  destruct n; [done|].
  destruct l as [[]|]; destruct r as [[]|]; simpl; auto;
  repeat case_match; simpl; auto.
Qed.

Definition oscalar (s : option scev) : Prop := from_option scalar_steps True s.
Lemma last_scalar (ops : list scev) i x :
  match last ops with Some o => is_chrec o = true -> length ops = 1%nat | None => True end ->
  ops !! i = Some x -> is_chrec x = true -> (length ops <= S i)%nat -> length ops = 1%nat.
Proof.
  intros H Hi Hx Hl.
  assert (last ops = Some x) as E.
  { rewrite last_lookup. rewrite <- Hi. f_equal. apply lookup_lt_Some in Hi. lia. }
  rewrite E in H. auto.
Qed.

Lemma add_fold_scalar out : forall n l r, oscalar l -> oscalar r ->
  scalar_steps (add_fold n l r out).
Proof.
  induction n as [|n IH]; intros l r Al Ar; [done|].
  assert (Cother : forall cl co ops other, scalar_steps (Chrec cl co ops) -> oscalar other ->
    scalar_steps (match other with
        | Some (Const 0) => Chrec cl co ops
        | _ => Chrec cl out
                 (match ops with
                  | [] => []
                  | o :: ops => add_fold n (Some o) other out :: ops
                  end)
        end)).
  { clear -IH. intros cl co ops other [Hne Ha] Ao.
    assert (G : scalar_steps (Chrec cl out (match ops with
                  | [] => []
                  | o :: ops => add_fold n (Some o) other out :: ops end))).
    { destruct ops as [|o ops]; [done|]. destruct Ha as [Ha1 Ha2]. split; [|split; [by apply IH|done]].
      destruct ops as [|o' ops]; [done|]. exact Hne. }
    destruct other as [[]|]; try exact G. destruct c; try exact G. done. }
  destruct l as [[|o|o|c|l1 l2|l1 l2|L lo lops|aops|mops]|]; simpl in Al; try done;
  destruct r as [[|o'|o'|c'|r1 r2|r1 r2|L' ro rops|aops'|mops']|]; simpl in Ar; try done; simpl add_fold;
  try exact I;
  try solve [first
    [ exact (Cother L lo lops (Some (Init o')) Al Ar) | exact (Cother L lo lops (Some (Const c')) Al Ar)
    | exact (Cother L lo lops (Some (Placeholder o')) Al Ar)
    | exact (Cother L lo lops (Some (AddE r1 r2)) Al Ar) | exact (Cother L lo lops (Some (MulE r1 r2)) Al Ar)
    | exact (Cother L lo lops (Some (NAdd aops')) Al Ar) | exact (Cother L lo lops (Some (NMul mops')) Al Ar)
    | exact (Cother L lo lops None Al Ar)
    | exact (Cother L' ro rops (Some (Init o)) Ar Al) | exact (Cother L' ro rops (Some (Const c)) Ar Al)
    | exact (Cother L' ro rops (Some (Placeholder o)) Ar Al)
    | exact (Cother L' ro rops (Some (AddE l1 l2)) Ar Al) | exact (Cother L' ro rops (Some (MulE l1 l2)) Ar Al)
    | exact (Cother L' ro rops (Some (NAdd aops)) Ar Al) | exact (Cother L' ro rops (Some (NMul mops)) Ar Al)
    | exact (Cother L' ro rops None Ar Al)]];
  try solve [lazymatch goal with
    | |- scalar_steps (if _ then _ else _) => fail
    | |- _ => simpl; rewrite ?all_Forall in *; rewrite ?Forall_app, ?Forall_cons, ?Forall_nil;
      simpl; rewrite ?all_Forall; tauto end];
  try solve [destruct (_ =? 0); simpl; rewrite ?all_Forall in *; tauto].
  - destruct (_ =? 0); simpl; [done|]. rewrite all_Forall in *.
    apply fold_const_Forall; [done| |done]. intros k _. by apply IH.
  - case_decide; [|simpl; split; [done|]; tauto].
    destruct Al as [Al1 Al2], Ar as [Ar1 Ar2].
    change (scalar_steps (Chrec L out (pairwise n lops rops out))). split.
    + destruct (last (pairwise n lops rops out)) as [x|] eqn:El; [|done]. intros Hx.
      rewrite last_lookup in El. rewrite pairwise_length in *.
      assert (Hlt : (pred (Nat.max (length lops) (length rops)) < Nat.max (length lops) (length rops))%nat).
      { apply lookup_lt_Some in El. by rewrite pairwise_length in El. }
      rewrite pairwise_lookup in El by done. injection El as <-.
      set (k := pred _) in *.
      apply add_fold_is_chrec in Hx as [Hx|Hx].
      * destruct (lops !! k) as [y|] eqn:Ey; [|done]. simpl in Hx.
        pose proof (lookup_lt_Some _ _ _ Ey).
        assert (length lops = 1%nat) by (eapply last_scalar; eauto; lia). lia.
      * destruct (rops !! k) as [y|] eqn:Ey; [|done]. simpl in Hx.
        pose proof (lookup_lt_Some _ _ _ Ey).
        assert (length rops = 1%nat) by (eapply last_scalar; eauto; lia). lia.
    + rewrite all_Forall in *. apply (pairwise_Forall scalar_steps scalar_steps); [|done|done].
      intros x y Hx Hy _. apply IH; [by destruct x|by destruct y].
  - destruct (_ =? 0); simpl; [done|]. rewrite all_Forall in *.
    apply fold_const_Forall; [done| |done]. intros k _. by apply IH.
Qed.

(** * Multiplication *)
Definition good (s : scev) : Prop := algebraic s /\ scalar_steps s.
Lemma good_chrec l o ops : good (Chrec l o ops) <->
  ops <> [] /\ Forall good ops /\
  match last ops with Some o => is_chrec o = true -> length ops = 1%nat | None => True end.
Proof.
  unfold good. simpl. rewrite !all_Forall. rewrite Forall_and. tauto.
Qed.
Lemma good_nadd ops : good (NAdd ops) <-> Forall good ops.
Proof. unfold good. simpl. rewrite !all_Forall. by rewrite Forall_and. Qed.
Lemma good_add n l r out : from_option good True l -> from_option good True r ->
  good (add_fold n l r out).
Proof.
  intros Hl Hr. split; [apply add_fold_algebraic | apply add_fold_scalar];
    (destruct l as [l|]; [apply Hl|exact I]) || (destruct r as [r|]; [apply Hr|exact I]).
Qed.
Lemma good_pairwise n L lo ro lops rops out :
  good (Chrec L lo lops) -> good (Chrec L ro rops) ->
  good (Chrec L out (pairwise n lops rops out)).
Proof.
  intros Hl Hr. rewrite <- (add_chrecs n L lo ro). by apply good_add.
Qed.
Lemma step_recurrence_tail L o ops out : good (Chrec L o ops) -> (2 <= length ops)%nat ->
  exists o', step_recurrence L o ops out = (L, o', tail ops) /\ good (Chrec L o' (tail ops)).
Proof.
  intros (H1 & H2 & H3)%good_chrec Hlen.
  assert (E : exists o', step_recurrence L o ops out = (L, o', tail ops)).
  { destruct ops as [|a [|b [|c ops]]]; try (simpl in Hlen; lia).
    - destruct b; simpl; eauto. specialize (H3 eq_refl). discriminate.
    - destruct b; simpl; eauto. }
  destruct E as [o' E]. exists o'. split; [done|]. apply good_chrec.
  destruct ops as [|a [|b ops]]; simpl in Hlen; try lia. simpl.
  apply Forall_cons_1 in H2 as [_ H2]. split; [done|]. split; [done|].
  change (last (a :: b :: ops)) with (last (b :: ops)) in H3.
  destruct (last (b :: ops)); [|done]. intros Hc. specialize (H3 Hc). simpl in H3. lia.
Qed.

Section Width.
Context {wd : nat} (Hw : (wd <= 64)%nat).
Notation eq64 := (eqw wd).

Lemma Forall2_collect_mul pt (f : scev -> option scev) ops rs vs g :
  Forall2 (fun o r => f o = Some r) ops rs -> Forall2 (denotes wd pt) ops vs ->
  (forall o r v, o ∈ ops -> f o = Some r -> denotes wd pt o v -> denotes wd pt r (g * v)) ->
  Forall2 (denotes wd pt) rs (map (Z.mul g) vs).
Proof.
  intros H. revert vs. induction H as [|o r ops rs Ho H IH]; intros vs Hv Hf.
  - inversion Hv; subst. constructor.
  - inversion Hv; subst. simpl. constructor.
    + apply (Hf o); [left|done|done].
    + apply IH; [done|]. intros o' r' v' Hin. apply Hf. by right.
Qed.

Definition sound_mul (wd : nat) pt n := forall l r s out, good l -> good r ->
  mul_fold n l r out = Some s -> algebraic s /\
  forall vl vr, denotes wd pt l vl -> denotes wd pt r vr -> denotes wd pt s (vl * vr).
Definition sound_product (wd : nat) pt n := forall L lo ro lops rops l' o' ops' out,
  good (Chrec L lo lops) -> good (Chrec L ro rops) ->
  product n (L, lo, lops) (L, ro, rops) out = Some (l', o', ops') ->
  l' = L /\ ops' <> [] /\ Forall algebraic ops' /\
  forall vs ws, Forall2 (denotes wd pt) lops vs -> Forall2 (denotes wd pt) rops ws ->
  exists zs, Forall2 (denotes wd pt) ops' zs /\
    forall i, eq64 (crval zs i) (crval vs i * crval ws i).

Lemma sum_upto_0 (f : nat -> Z) n : (forall i, f i = 0) -> sum_upto f n = 0.
Proof. intros H. induction n; simpl; [done|]. rewrite IHn, H. done. Qed.
Lemma crval_single a i : crval [a] i = a.
Proof. simpl. rewrite sum_upto_0; [ring|done]. Qed.

(** The general case of the product. *)
Definition product_step n L xo X yo Y out : option chrec :=
  match as_chrec (ApplyAddFolding (Some (Chrec L yo Y)) (Some (as_scev (step_recurrence L yo Y out))) out) with
  | None => None
  | Some rmarked =>
    match product n (L, xo, X) (step_recurrence L yo Y out) out,
          product n rmarked (step_recurrence L xo X out) out with
    | Some res1, Some res2 =>
      match as_chrec (ApplyAddFolding (Some (as_scev res1)) (Some (as_scev res2)) out) with
      | None => None
      | Some (fl, fo, fops) =>
        match head X, head Y with
        | Some a, Some b =>
          match mul_fold n a b out with
          | Some first => Some (fl, fo, first :: fops)
          | None => None
          end
        | _, _ => None
        end
      end
    | _, _ => None
    end
  end.

Lemma pairwise_algebraic n lops rops out : Forall algebraic lops -> Forall algebraic rops ->
  Forall algebraic (pairwise n lops rops out).
Proof.
  intros. apply (pairwise_Forall algebraic algebraic); [|done|done].
  intros x y Hx Hy _. apply add_fold_algebraic; [by destruct x|by destruct y].
Qed.
Lemma good_algebraic ops : Forall good ops -> Forall algebraic ops.
Proof. intros H. eapply Forall_impl; [exact H|]. by intros x []. Qed.

Lemma product_general pt n X Y L xo yo l' o' ops' out :
  sound_mul wd pt n -> sound_product wd pt n ->
  good (Chrec L xo X) -> good (Chrec L yo Y) ->
  (2 <= length X)%nat -> (2 <= length Y)%nat ->
  product_step n L xo X yo Y out = Some (l', o', ops') ->
  l' = L /\ ops' <> [] /\ Forall algebraic ops' /\
  forall vs ws, Forall2 (denotes wd pt) X vs -> Forall2 (denotes wd pt) Y ws ->
  exists zs, Forall2 (denotes wd pt) ops' zs /\
    forall i, eq64 (crval zs i) (crval vs i * crval ws i).
Proof.
  intros IM IP GX GY HX HY H. unfold product_step in H.
  destruct (step_recurrence_tail L xo X out GX HX) as (xo' & EX & GX').
  destruct (step_recurrence_tail L yo Y out GY HY) as (yo' & EY & GY').
  rewrite EX, EY in H. simpl as_scev in H.
  destruct (add_chrecs' L yo yo' Y (tail Y) out) as (m & Em). rewrite Em in H.
  simpl as_chrec in H. pose proof (good_pairwise m L yo yo' Y (tail Y) out GY GY') as GM.
  destruct (product n (L, xo, X) (L, yo', tail Y) out) as [[[l1 o1] r1]|] eqn:E1; [|done].
  destruct (product n (L, out, _) (L, xo', tail X) out) as [[[l2 o2] r2]|] eqn:E2; [|done].
  destruct X as [|a X]; [simpl in HX; lia|]. destruct Y as [|b Y]; [simpl in HY; lia|].
  simpl tail in *.
  destruct (IP _ _ _ _ _ _ _ _ _ GX GY' E1) as (-> & N1 & A1 & V1).
  destruct (IP _ _ _ _ _ _ _ _ _ GM GX' E2) as (-> & N2 & A2 & V2).
  simpl as_scev in H. destruct (add_chrecs' L o1 o2 r1 r2 out) as (k & Ek). rewrite Ek in H.
  simpl in H. destruct (mul_fold n a b out) as [first|] eqn:Ef; [|done].
  injection H as <- <- <-.
  apply good_chrec in GX as (_ & [Ga GX]%Forall_cons_1 & _).
  apply good_chrec in GY as (_ & [Gb GY]%Forall_cons_1 & _).
  destruct (IM _ _ _ _ Ga Gb Ef) as [Af Df].
  split; [done|]. split; [done|]. split.
  { constructor; [done|]. by apply pairwise_algebraic. }
  intros vs ws DX DY.
  inversion DX as [|? va ? vs' DA DX']; subst. inversion DY as [|? vb ? ws' DB DY']; subst.
  destruct (V1 _ _ DX DY') as (z1 & Z1 & W1).
  assert (DM : Forall2 (denotes wd pt) (pairwise m (b :: Y) Y out) (padadd (vb :: ws') ws')).
  { apply pairwise_denotes; [done|constructor; [apply Gb|]| |done|done]; by apply good_algebraic. }
  destruct (V2 _ _ DM DX') as (z2 & Z2 & W2).
  exists (va * vb :: padadd z1 z2). split.
  - constructor; [by apply Df|]. apply pairwise_denotes; done.
  - apply crval_product64; [exact W1|]. intros i. rewrite W2. by rewrite crval_padadd.
Qed.

Lemma collect_algebraic (f : scev -> option scev) ops rs :
  Forall2 (fun o r => f o = Some r) ops rs -> (forall o r, o ∈ ops -> f o = Some r -> algebraic r) ->
  Forall algebraic rs.
Proof.
  intros H. induction H as [|o r ops rs Ho H IH]; intros Hf; constructor.
  - apply (Hf o); [left|done].
  - apply IH. intros o' r' Hin. apply Hf. by right.
Qed.

Lemma product_sound pt n : sound_mul wd pt n -> sound_product wd pt n -> sound_product wd pt (S n).
Proof.
  intros IM IP L lo ro lops rops l' o' ops' out Gl Gr H.
  pose proof (proj1 (good_chrec _ _ _) Gl) as (Nl & Fl & _).
  pose proof (proj1 (good_chrec _ _ _) Gr) as (Nr & Fr & _).
  assert (C1 : forall g, good g ->
     (exists rs, collect (map (fun x => mul_fold n g x out) rops) = Some rs /\ ops' = rs /\ l' = L) ->
     l' = L /\ ops' <> [] /\ Forall algebraic ops' /\
     forall gv ws, denotes wd pt g gv -> Forall2 (denotes wd pt) rops ws ->
     exists zs, Forall2 (denotes wd pt) ops' zs /\ forall i, eq64 (crval zs i) (gv * crval ws i)).
  { clear -Hw IM Nr Fr. intros g Gg (rs & E & -> & ->). apply collect_map in E.
    split; [done|]. split; [by inversion E; subst|]. split.
    - eapply collect_algebraic; [exact E|]. intros o r Hin Hm.
      rewrite List.Forall_forall in Fr. apply elem_of_list_In in Hin. by apply (IM _ _ _ _ Gg (Fr _ Hin) Hm).
    - intros gv ws Dg Dw. exists (map (Z.mul gv) ws). split.
      + eapply Forall2_collect_mul; [exact E|done|]. intros o r v Hin Hm Ho.
        rewrite List.Forall_forall in Fr. apply elem_of_list_In in Hin.
        by apply (IM _ _ _ _ Gg (Fr _ Hin) Hm).
      + intros i. by rewrite crval_scale. }
  assert (C2 : forall g, good g ->
     (exists rs, collect (map (fun x => mul_fold n x g out) lops) = Some rs /\ ops' = rs /\ l' = L) ->
     l' = L /\ ops' <> [] /\ Forall algebraic ops' /\
     forall gv ws, denotes wd pt g gv -> Forall2 (denotes wd pt) lops ws ->
     exists zs, Forall2 (denotes wd pt) ops' zs /\ forall i, eq64 (crval zs i) (gv * crval ws i)).
  { clear -Hw IM Nl Fl. intros g Gg (rs & E & -> & ->). apply collect_map in E.
    split; [done|]. split; [by inversion E; subst|]. split.
    - eapply collect_algebraic; [exact E|]. intros o r Hin Hm.
      rewrite List.Forall_forall in Fl. apply elem_of_list_In in Hin. by apply (IM _ _ _ _ (Fl _ Hin) Gg Hm).
    - intros gv ws Dg Dw. exists (map (Z.mul gv) ws). split.
      + eapply Forall2_collect_mul; [exact E|done|]. intros o r v Hin Hm Ho.
        rewrite List.Forall_forall in Fl. apply elem_of_list_In in Hin. rewrite Z.mul_comm.
        by apply (IM _ _ _ _ (Fl _ Hin) Gg Hm).
      + intros i. by rewrite crval_scale. }
  destruct lops as [|a lops]; [done|]. destruct rops as [|b rops]; [done|].
  pose proof (proj1 (Forall_cons_1 _ _ _ Fl)) as Ga. pose proof (proj1 (Forall_cons_1 _ _ _ Fr)) as Gb.
  destruct lops as [|a' lops].
  { simpl in H. destruct (C1 a Ga) as (? & ? & ? & V).
    { simpl. destruct (mul_fold n a b out); [|done]. destruct (collect _); [|done].
      injection H as <- <- <-. eauto. }
    split; [done|]. split; [done|]. split; [done|]. intros vs ws Dv Dw.
    inversion Dv as [|? va ? ? Da Dn]; subst. inversion Dn; subst.
    destruct (V va ws Da Dw) as (zs & Hz & Hv). exists zs. split; [done|]. intros i.
    rewrite crval_single. apply Hv. }
  destruct rops as [|b' rops].
  { simpl in H. destruct (C2 b Gb) as (? & ? & ? & V).
    { simpl. destruct (mul_fold n a b out); [|done]. destruct (mul_fold n a' b out); [|done].
      destruct (collect _); [|done]. injection H as <- <- <-. eauto. }
    split; [done|]. split; [done|]. split; [done|]. intros vs ws Dv Dw.
    inversion Dw as [|? vb ? ? Db Dn]; subst. inversion Dn; subst.
    destruct (V vb vs Db Dv) as (zs & Hz & Hv). exists zs. split; [done|]. intros i.
    rewrite crval_single, Z.mul_comm. apply Hv. }
  assert (H' : (if decide (length (a :: a' :: lops) < length (b :: b' :: rops))%nat
     then product_step n L ro (b :: b' :: rops) lo (a :: a' :: lops) out
     else product_step n L lo (a :: a' :: lops) ro (b :: b' :: rops) out) = Some (l', o', ops')).
  { rewrite <- H. unfold product_step. cbn -[step_recurrence ApplyAddFolding]. 
    destruct (decide _); reflexivity. }
  clear H. destruct (decide _).
  - destruct (product_general pt n _ _ L ro lo l' o' ops' out IM IP Gr Gl) as (? & ? & ? & V);
      [simpl; lia|simpl; lia|done|].
    split; [done|]. split; [done|]. split; [done|]. intros vs ws Dv Dw.
    destruct (V ws vs Dw Dv) as (zs & Hz & Hv). exists zs. split; [done|].
    intros i. rewrite Z.mul_comm. apply Hv.
  - destruct (product_general pt n _ _ L lo ro l' o' ops' out IM IP Gl Gr) as (? & ? & ? & V);
      [simpl; lia|simpl; lia|done|]. done.
Qed.

Lemma mul_sound_step pt n : sound_mul wd pt n -> sound_product wd pt n -> sound_mul wd pt (S n).
Proof.
  intros IM IP l r s out Gl Gr H.
  assert (Cother : forall ops other rs, Forall good ops -> good other ->
    collect (map (fun o => mul_fold n o other out) ops) = Some rs ->
    Forall algebraic rs /\ forall vs ov, Forall2 (denotes wd pt) ops vs -> denotes wd pt other ov ->
      Forall2 (denotes wd pt) rs (map (Z.mul ov) vs)).
  { clear -Hw IM. intros ops other rs F Go E. apply collect_map in E. rewrite List.Forall_forall in F. split.
    - eapply collect_algebraic; [exact E|]. intros o r Hin Hm. apply elem_of_list_In in Hin.
      by apply (IM _ _ _ _ (F _ Hin) Go Hm).
    - intros vs ov Dv Do. eapply Forall2_collect_mul; [exact E|done|].
      intros o r v Hin Hm Hv. apply elem_of_list_In in Hin. rewrite Z.mul_comm.
      by apply (IM _ _ _ _ (F _ Hin) Go Hm). }
  assert (Cch : forall cl co ops other, good (Chrec cl co ops) -> good other ->
    match other with
        | Const 1 => Some (Chrec cl co ops)
        | Const 0 => Some (Const 0)
        | _ => match collect (map (fun o => mul_fold n o other out) ops) with
               | Some ops' => Some (Chrec cl out ops') | None => None end
        end = Some s ->
    algebraic s /\ forall cv ov, denotes wd pt (Chrec cl co ops) cv -> denotes wd pt other ov ->
      denotes wd pt s (cv * ov)).
  { clear -Hw Cother. intros cl co ops other Gc Go H.
    pose proof (proj1 (good_chrec _ _ _) Gc) as (Nc & Fc & _).
    assert (G : match collect (map (fun o => mul_fold n o other out) ops) with
               | Some ops' => Some (Chrec cl out ops') | None => None end = Some s ->
      algebraic s /\ forall cv ov, denotes wd pt (Chrec cl co ops) cv -> denotes wd pt other ov ->
      denotes wd pt s (cv * ov)).
    { clear H. intros H. destruct (collect _) as [rs|] eqn:E; [|done]. injection H as <-.
      destruct (Cother _ _ _ Fc Go E) as [A D]. split.
      - simpl. split; [|by apply all_Forall]. apply collect_map in E. by inversion E; subst.
      - intros cv ov Dc Do. inversion Dc as [| | | | | |? ? ? vs ? F E'| |]; subst.
        econstructor; [apply (D vs ov F Do)|]. rewrite crval_scale, E'. apply eq64_of_eq. ring. }
    destruct other; try exact (G H). destruct c as [|[]|]; try exact (G H).
    - injection H as <-. split; [exact I|]. intros cv ov _ Do. inversion Do; subst. constructor.
      rewrite H0. apply eq64_of_eq. ring.
    - injection H as <-. split; [apply Gc|]. intros cv ov Dc Do. inversion Do; subst.
      eapply denotes_eq64; [|exact Dc]. rewrite H0. apply eq64_of_eq. ring. }
  assert (Cna : forall ops other, good (NAdd ops) -> good other ->
    match collect (map (fun o => mul_fold n o other out) ops) with
    | Some ops' => Some (NAdd ops') | None => None end = Some s ->
    algebraic s /\ forall cv ov, denotes wd pt (NAdd ops) cv -> denotes wd pt other ov ->
      denotes wd pt s (cv * ov)).
  { clear -Hw Cother. intros ops other Gc%good_nadd Go H.
    destruct (collect _) as [rs|] eqn:E; [|done]. injection H as <-.
    destruct (Cother _ _ _ Gc Go E) as [A D]. split.
    - simpl. by apply all_Forall.
    - intros cv ov Dc Do. inversion Dc as [| | | | | | |? vs ? F E'|]; subst.
      econstructor; [apply (D vs ov F Do)|]. rewrite sum_scale, E'. apply eq64_of_eq. ring. }
  assert (Sw : forall x y, (algebraic s /\ forall cv ov, denotes wd pt x cv -> denotes wd pt y ov ->
      denotes wd pt s (cv * ov)) -> algebraic s /\ forall cv ov, denotes wd pt y cv -> denotes wd pt x ov ->
      denotes wd pt s (cv * ov)).
  { intros x y [A D]. split; [done|]. intros. rewrite Z.mul_comm. auto. }
  assert (Ccm : forall c mops, good (NMul mops) ->
     Some (if c =? 1 then NMul mops
              else NMul (fold_const (fun k => match k with
                                              | Const k => Const (wrap64 (k * c))
                                              | _ => Unknown end) (Const c) mops)) = Some s ->
     algebraic s /\ forall cv ov, denotes wd pt (NMul mops) cv -> denotes wd pt (Const c) ov ->
       denotes wd pt s (cv * ov)).
  { clear -Hw. intros c mops G H. destruct (Z.eqb_spec c 1) as [->|Hc]; injection H as <-.
    - split; [apply G|]. intros cv ov Dc Do. inversion Do; subst. eapply denotes_eq64; [|exact Dc].
      rewrite H0. apply eq64_of_eq. ring.
    - split.
      + simpl. apply all_Forall. destruct G as [G _]. simpl in G. apply all_Forall in G.
        by apply fold_const_Forall.
      + intros cv ov Dc Do. inversion Dc as [| | | | | | | |? vs ? F E]; subst.
        inversion Do as [| | |? ? E'| | | | |]; subst.
        destruct (fold_const_prod (wd:=wd) pt (fun k => match k with
                                              | Const k => Const (wrap64 (k * c))
                                              | _ => Unknown end) (Const c) mops vs ov)
          as (ws & W1 & W2); [done|by constructor| |].
        * intros k kv Hk. inversion Hk; subst. constructor. rewrite (eq64_wrap (wd := wd)) by done. rewrite E', H0. reflexivity.
        * econstructor; [exact W1|]. rewrite W2, E. reflexivity. }
  destruct l as [|o|o|c|l1 l2|l1 l2|L lo lops|aops|mops]; simpl in Gl; try (by destruct Gl as [[] ?]);
  destruct r as [|o'|o'|c'|r1 r2|r1 r2|L' ro rops|aops'|mops']; simpl in Gr; try (by destruct Gr as [[] ?]);
  simpl in H;
  try solve [injection H as <-; split; [exact I|intros; constructor]];
  try solve [first
    [ exact (Cch L lo lops (Init o') Gl Gr H) | exact (Cch L lo lops (Const c') Gl Gr H)
    | exact (Cch L lo lops (NAdd aops') Gl Gr H) | exact (Cch L lo lops (NMul mops') Gl Gr H)
    | exact (Sw _ _ (Cch L' ro rops (Init o) Gr Gl H)) | exact (Sw _ _ (Cch L' ro rops (Const c) Gr Gl H))
    | exact (Sw _ _ (Cch L' ro rops (NAdd aops) Gr Gl H)) | exact (Sw _ _ (Cch L' ro rops (NMul mops) Gr Gl H))
    | exact (Cna aops (Init o') Gl Gr H) | exact (Cna aops (Const c') Gl Gr H)
    | exact (Cna aops (NAdd aops') Gl Gr H) | exact (Cna aops (NMul mops') Gl Gr H)
    | exact (Sw _ _ (Cna aops' (Init o) Gr Gl H)) | exact (Sw _ _ (Cna aops' (Const c) Gr Gl H))
    | exact (Sw _ _ (Cna aops' (NMul mops) Gr Gl H))
    | exact (Ccm c' mops Gl H) | exact (Sw _ _ (Ccm c mops' Gr H)) ]];
  try solve [injection H as <-; split; [simpl; destruct Gl as [Gl _], Gr as [Gr _]; simpl in Gl, Gr;
      rewrite ?all_Forall in *; rewrite ?Forall_app, ?Forall_cons, ?Forall_nil; tauto |
      intros vl vr Dl Dr; den1; den1;
      first [ match goal with F : Forall2 _ ?ops ?vs |- denotes _ _ (NMul (?ops ++ [_])) _ =>
                eapply (D_nmul _ _ _ (vs ++ [_])) end;
              [apply Forall2_app; [eassumption|]; repeat constructor; eauto; econstructor; eauto; reflexivity
              | rewrite prod_app; e64]
            | eapply (D_nmul _ _ _ [_; _]);
             [repeat (apply List.Forall2_cons); try apply List.Forall2_nil;
              econstructor; eauto; reflexivity | e64] ]]].
  - (* init, const *)
    injection H as <-. destruct (Z.eqb_spec c' 1) as [->|Hc].
    + split; [exact I|]. intros. den1. den1. constructor. e64.
    + split; [simpl; tauto|]. intros vl vr Dl Dr. den1. den1.
      eapply (D_nmul _ _ _ [_; _]); [repeat constructor; reflexivity|]. e64.
  - (* const, init *)
    injection H as <-. destruct (Z.eqb_spec c 1) as [->|Hc].
    + split; [exact I|]. intros. den1. den1. constructor. e64.
    + split; [simpl; tauto|]. intros vl vr Dl Dr. den1. den1.
      eapply (D_nmul _ _ _ [_; _]); [repeat constructor; reflexivity|]. e64.
  - injection H as <-. split; [exact I|]. intros. den1. den1. constructor. rewrite eq64_wrap by done. e64.
  - (* two recurrences *)
    destruct (decide _) as [->|Hne].
    + destruct (product n _ _ out) as [[[l' o'] ops']|] eqn:E; [|done]. injection H as <-.
      destruct (IP _ _ _ _ _ _ _ _ _ Gl Gr E) as (-> & N & A & V). split.
      * simpl. split; [done|]. by apply all_Forall.
      * intros vl vr Dl Dr. inversion Dl as [| | | | | |? ? ? vs ? F Ev| |]; subst.
        inversion Dr as [| | | | | |? ? ? ws ? F' Ew| |]; subst.
        destruct (V vs ws F F') as (zs & Z1 & Z2). simpl. econstructor; [exact Z1|].
        rewrite Z2, Ev, Ew. reflexivity.
    + injection H as <-. split.
      * split; [done|]. split; [|done]. split; [apply Gl|]. split; [apply Gr|done].
      * intros vl vr Dl Dr. apply (D_chrec _ _ _ _ _ [vl * vr]); [|by rewrite crval_single].
        repeat constructor. apply (D_nmul _ _ _ [vl; vr]); [by repeat constructor|].
        apply eq64_of_eq. simpl. ring.
  - injection H as <-. split.
    + simpl. destruct Gl as [Gl _], Gr as [Gr _]. simpl in Gl, Gr. rewrite all_Forall in *.
      by apply Forall_app.
    + intros vl vr Dl Dr. inversion Dl as [| | | | | | | |? vs ? F E]; subst.
      inversion Dr as [| | | | | | | |? ws ? F' E']; subst.
      apply (D_nmul _ _ _ (vs ++ ws)); [by apply Forall2_app|]. rewrite prod_app, E, E'. reflexivity.
Qed.

Lemma mul_product_sound pt n : sound_mul wd pt n /\ sound_product wd pt n.
Proof.
  induction n as [|n [IM IP]]; [split|].
  - intros ???????; discriminate.
  - intros ???????????? ; discriminate.
  - split; [by apply mul_sound_step|by apply product_sound].
Qed.
End Width.
