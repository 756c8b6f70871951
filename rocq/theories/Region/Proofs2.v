From stdpp Require Import base list gmap.
From Verif.Region Require Import Model Spec Proofs.

Lemma Bottom_frame s s' : nodes s' = nodes s -> outputs s' = outputs s -> bottom s' = bottom s -> Bottom s -> Bottom s'.
Proof.
  intros E1 E2 E3 HB. constructor; rewrite ?E1, ?E3; try apply HB.
  intros n nd Hn. rewrite (b_succ _ HB n nd Hn). apply total_ext. intros o _. unfold nusers. now rewrite E2.
Qed.
Lemma OwnO_frame s s' : nodes s' = nodes s -> outputs s' = outputs s -> args s' = args s -> OwnO s -> OwnO s'.
Proof. intros E1 E2 E3 [A B]. constructor; rewrite ?E1, ?E2, ?E3; assumption. Qed.

Lemma destroy_input_ok i x s : Core None s -> inputs s !! i = Some x ->
  exists s' o, in_origin x = Some o /\ destroy_input i s = Some s' /\ Core None s' /\ same_shape s s' /\ inputs s' = delete i (inputs s) /\
    (forall o', users_of s' o' = if decide (o' = o) then filter (fun j => j <> i) (users_of s o) else users_of s o').
Proof.
  intros HC Hx. destruct (remove_user_ok i x s HC Hx) as (s1 & o & Ho & E & [HE HO HB] & HS & HI & HU).
  unfold destroy_input. rewrite E. simpl. eexists _, o. split; [exact Ho|]. split; [reflexivity|].
  assert (inputs (set_inputs (delete i) s1) = delete i (inputs s)) as EI.
  { simpl. rewrite HI. apply delete_insert_delete. }
  split; [|split; [|split; [exact EI|exact HU]]].
  - constructor.
    + constructor; rewrite ?EI; simpl.
      * intros j z Hz _. assert (j <> i) as Hji by (intros ->; rewrite lookup_delete in Hz; discriminate).
        rewrite lookup_delete_ne in Hz by auto.
        apply (e_in _ _ HE j z); [rewrite HI, lookup_insert_ne by auto; exact Hz|congruence].
      * intros j z _ D. discriminate.
      * intros o' y j Hy Hj. destruct (e_users _ _ HE o' y j Hy Hj) as (z & Hz & Hzo). rewrite HI in Hz.
        assert (j <> i) as Hji. { intros ->. rewrite lookup_insert in Hz. injection Hz as <-. discriminate. }
        rewrite lookup_insert_ne in Hz by auto. exists z. rewrite lookup_delete_ne by auto. auto.
      * apply HE.
    + apply (OwnO_frame s1); [reflexivity..|assumption].
    + apply (Bottom_frame s1); [reflexivity..|assumption].
  - eapply same_shape_trans; [exact HS|]. constructor; reflexivity.
Qed.

Lemma check_types_true o ty s : check_types o ty s = true -> exists y, outputs s !! o = Some y /\ ty = out_type y.
Proof.
  unfold check_types. destruct (outputs s !! o) as [y|]; [|discriminate]. intros H. apply bool_decide_eq_true in H. eauto.
Qed.

Lemma new_input_ok i ow o ty s : Core None s -> inputs s !! i = None -> check_types o ty s = true ->
  exists s', new_input i ow o ty s = Some s' /\ Core None s' /\ same_shape s s' /\
    inputs s' = <[i := {| in_owner := ow; in_origin := Some o; in_index := 0; in_type := ty |}]> (inputs s) /\
    (forall o', users_of s' o' = if decide (o' = o) then users_of s o ++ [i] else users_of s o').
Proof.
  intros [HE HO HB] Hi Hc. apply check_types_true in Hc as (y & Hy & ->).
  set (x := {| in_owner := ow; in_origin := None; in_index := 0; in_type := out_type y |}).
  assert (Core (Some i) (set_inputs <[i := x]> s)) as HC.
  { constructor; [|apply (OwnO_frame s); [reflexivity..|assumption]|apply (Bottom_frame s); [reflexivity..|assumption]].
    constructor; simpl.
    - intros j z Hz Hne. rewrite lookup_insert_ne in Hz by congruence. eapply e_in; [exact HE|exact Hz|discriminate].
    - intros j z Hz E. injection E as <-. rewrite lookup_insert in Hz. injection Hz as <-. reflexivity.
    - intros o' y' j Hy' Hj. destruct (e_users _ _ HE o' y' j Hy' Hj) as (z & Hz & Hzo).
      rewrite lookup_insert_ne by congruence. eauto.
    - apply HE. }
  destruct (add_user_ok i x o y _ HC) as (s' & E & HC' & HS & HI & HU); [apply lookup_insert|exact Hy|reflexivity|].
  unfold new_input. fold x. rewrite E. eexists. split; [reflexivity|]. split; [exact HC'|].
  split; [eapply same_shape_trans; [|exact HS]; constructor; reflexivity|]. split; [|exact HU].
  rewrite HI. simpl. rewrite insert_insert. reflexivity.
Qed.

(** ** divert_to *)
Section Ops.
  Context {T : Type} (obs : event -> region -> T -> T).
  Lemma divert_to_ok i o s : Inv s.1 -> is_input s.1 i ->
    match divert_to obs i o s with
    | Ok s' => Inv s'.1 /\ same_shape s.1 s'.1 /\
        exists x o0, inputs s.1 !! i = Some x /\ in_origin x = Some o0 /\
        is_output s.1 o /\
        inputs s'.1 = <[i := with_origin (Some o) x]> (inputs s.1) /\
        (o0 = o /\ s' = s \/ o0 <> o /\
         (forall o', users_of s'.1 o' = if decide (o' = o) then users_of s.1 o ++ [i]
            else if decide (o' = o0) then filter (fun j => j <> i) (users_of s.1 o0) else users_of s.1 o') /\
         s'.2 = obs (EInputChange i o0 o) s'.1 s.2)
    | Throws s' => s' = s /\ forall x, inputs s.1 !! i = Some x -> check_types o (in_type x) s.1 = false
    | UB => False
    end.
  Proof.
    intros [HC HI HT HA HD] [x Hx]. unfold divert_to. rewrite Hx.
    destruct (e_in _ _ (k_e _ _ HC) i x Hx ltac:(discriminate)) as (o0 & y0 & Ho0 & Hy0 & Hin & Hty). rewrite Ho0.
    destruct (decide (o0 = o)) as [->|Hne].
    - split; [constructor; assumption|]. split; [apply same_shape_refl|]. exists x, o. split; [first [assumption|reflexivity]|]. split; [first [assumption|reflexivity]|].
      split; [eexists; exact Hy0|]. split; [|left; auto].
      symmetry. apply insert_id. rewrite Hx. f_equal. destruct x; simpl in *. subst. reflexivity.
    - destruct (check_types o (in_type x) s.1) eqn:Hc.
      2:{ split; [reflexivity|]. intros x' Hx'. congruence. }
      apply check_types_true in Hc as (y & Hy & Hty').
      destruct (remove_user_ok i x s.1 HC Hx) as (s1 & o1 & Ho1 & E & HC1 & HS1 & HI1 & HU1). rewrite E. simpl.
      assert (o1 = o0) as -> by congruence.
      destruct (ss_out_l _ _ _ _ HS1 Hy) as (y1 & Hy1 & Esh). apply shape_out_inv in Esh as (_ & _ & Esh).
      destruct (add_user_ok i (with_origin None x) o y1 s1 HC1) as (s2 & E2 & HC2 & HS2 & HI2 & HU2).
      { rewrite HI1. apply lookup_insert. } { exact Hy1. } { simpl. congruence. }
      rewrite E2. assert (same_shape s.1 s2) as HS by (eapply same_shape_trans; eassumption).
      assert (inputs s2 = <[i := with_origin (Some o) x]> (inputs s.1)) as HI3. { rewrite HI2, HI1, insert_insert. reflexivity. }
      split; [constructor|].
      + exact HC2.
      + apply (OwnI_shape s.1 s2 HS); [|exact HI]. intros j ow k. rewrite HI3. destruct (decide (j = i)) as [->|Hji].
        * rewrite lookup_insert, Hx. split; intros (z & Hz & K); injection Hz as <-; eexists; split; try reflexivity; exact K.
        * rewrite lookup_insert_ne by auto. reflexivity.
      + exact (Top_shape _ _ HS HT).
      + exact (AllN_shape _ _ HS HA).
      + exact (Ids_shape _ _ HS HD).
      + split; [exact HS|]. exists x, o0. split; [first [assumption|reflexivity]|]. split; [first [assumption|reflexivity]|]. split; [eexists; exact Hy|]. split; [exact HI3|].
        right. split; [assumption|]. split; [|reflexivity]. intros o'. simpl. rewrite HU2.
        destruct (decide (o' = o)) as [->|]; rewrite HU1; [rewrite decide_False by congruence; reflexivity|reflexivity].
  Qed.
End Ops.
