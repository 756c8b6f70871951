From stdpp Require Import base list gmap.
From Verif.Region Require Import Model Spec.

(** ** the invariant, in parts *)
Definition nusers (s : region) (o : ptr) : nat := match outputs s !! o with Some y => out_nusers y | None => 0 end.
Definition total (s : region) (l : list ptr) : nat := sum_list_with (nusers s) l.

(** [d]: an input that is detached from its origin at the moment *)
Record Edges (d : option ptr) (s : region) : Prop := {
  e_in : forall i x, inputs s !! i = Some x -> d <> Some i ->
    exists o y, in_origin x = Some o /\ outputs s !! o = Some y /\ i ∈ out_users y /\ in_type x = out_type y;
  e_det : forall i x, inputs s !! i = Some x -> d = Some i -> in_origin x = None;
  e_users : forall o y i, outputs s !! o = Some y -> i ∈ out_users y -> exists x, inputs s !! i = Some x /\ in_origin x = Some o;
  e_nodup : forall o y, outputs s !! o = Some y -> NoDup (out_users y) /\ out_nusers y = length (out_users y) }.
Record OwnO (s : region) : Prop := {
  o_node : forall n k o, (exists nd, nodes s !! n = Some nd /\ nd_outputs nd !! k = Some o) <->
    (exists y, outputs s !! o = Some y /\ out_owner y = ONode n /\ out_index y = k);
  o_arg : forall k o, args s !! k = Some o <-> (exists y, outputs s !! o = Some y /\ out_owner y = ORegion /\ out_index y = k) }.
Record OwnI (s : region) : Prop := {
  i_node : forall n k i, (exists nd, nodes s !! n = Some nd /\ nd_inputs nd !! k = Some i) <->
    (exists x, inputs s !! i = Some x /\ in_owner x = ONode n /\ in_index x = k);
  i_res : forall k i, results s !! k = Some i <-> (exists x, inputs s !! i = Some x /\ in_owner x = ORegion /\ in_index x = k) }.
Definition il_ok (l : ilist) : Prop := NoDup (il_elems l) /\ il_size l = length (il_elems l).
Record Bottom (s : region) : Prop := {
  b_succ : forall n nd, nodes s !! n = Some nd -> nd_succ nd = total s (nd_outputs nd);
  b_ok : il_ok (bottom s);
  b_iff : forall n, n ∈ il_elems (bottom s) <-> exists nd, nodes s !! n = Some nd /\ nd_succ nd = 0 }.
Definition Top (s : region) : Prop := il_ok (top s) /\
  forall n, n ∈ il_elems (top s) <-> exists nd, nodes s !! n = Some nd /\ nd_inputs nd = [].
Definition AllN (s : region) : Prop := il_ok (all_nodes s) /\
  forall n, n ∈ il_elems (all_nodes s) <-> is_Some (nodes s !! n).
Definition Ids (s : region) : Prop :=
  (forall n nd, nodes s !! n = Some nd -> nd_id nd < next_id s) /\
  (forall n m nd md, nodes s !! n = Some nd -> nodes s !! m = Some md -> nd_id nd = nd_id md -> n = m).
Record Core (d : option ptr) (s : region) : Prop := { k_e : Edges d s; k_o : OwnO s; k_b : Bottom s }.
Record Inv (s : region) : Prop := { v_core : Core None s; v_i : OwnI s; v_t : Top s; v_a : AllN s; v_id : Ids s }.

(** ** intrusive lists *)
Lemma il_push_ok x l : il_ok l -> x ∉ il_elems l ->
  exists l', il_push x l = Some l' /\ il_ok l' /\ forall y, y ∈ il_elems l' <-> y ∈ il_elems l \/ y = x.
Proof.
  intros [Hn Hs] Hx. unfold il_push. rewrite decide_False by assumption. eexists. split; [reflexivity|]. split.
  - split; simpl.
    + apply NoDup_app. split; [assumption|]. split; [|apply NoDup_singleton].
      intros y Hy Hy'. apply elem_of_list_singleton in Hy'. subst. contradiction.
    + rewrite app_length, Hs. simpl. lia.
  - intros y. simpl. rewrite elem_of_app, elem_of_list_singleton. reflexivity.
Qed.
Lemma filter_ne_length (l : list ptr) x : NoDup l -> x ∈ l -> length (filter (fun y => y <> x) l) = pred (length l).
Proof.
  induction l as [|a l IH]; intros Hn Hx; [inversion Hx|]. apply NoDup_cons in Hn as [Ha Hn].
  apply elem_of_cons in Hx as [->|Hx].
  - rewrite filter_cons_False by auto. simpl. f_equal. clear IH Hn. induction l as [|b l IH]; [reflexivity|].
    rewrite filter_cons_True. 2:{ intros ->. apply Ha. now left. } simpl. f_equal. apply IH. intros H. apply Ha. now right.
  - assert (a <> x) by (intros ->; contradiction). rewrite filter_cons_True by assumption. simpl. rewrite IH by assumption.
    destruct l; [inversion Hx|reflexivity].
Qed.
Lemma il_erase_ok x l : il_ok l -> x ∈ il_elems l ->
  exists l', il_erase x l = Some l' /\ il_ok l' /\ forall y, y ∈ il_elems l' <-> y ∈ il_elems l /\ y <> x.
Proof.
  intros [Hn Hs] Hx. unfold il_erase. rewrite decide_True by assumption. eexists. split; [reflexivity|]. split.
  - split; simpl; [now apply NoDup_filter|]. rewrite filter_ne_length by assumption. now rewrite Hs.
  - intros y. simpl. rewrite elem_of_list_filter. tauto.
Qed.

(** ** shapes: what add_user and remove_user do not change *)
Lemma same_shape_refl s : same_shape s s.
Proof. constructor; reflexivity. Qed.
Lemma same_shape_trans s t u : same_shape s t -> same_shape t u -> same_shape s u.
Proof. intros [] []. constructor; congruence. Qed.
Lemma ss_node_l s s' n nd : same_shape s s' -> nodes s !! n = Some nd -> exists nd', nodes s' !! n = Some nd' /\ shape_node nd' = shape_node nd.
Proof.
  intros H E. pose proof (ss_nodes _ _ H n) as K. rewrite E in K. destruct (nodes s' !! n) as [nd'|]; [|discriminate].
  exists nd'. split; [reflexivity|]. simpl in K. congruence.
Qed.
Lemma ss_node_r s s' n nd : same_shape s s' -> nodes s' !! n = Some nd -> exists nd', nodes s !! n = Some nd' /\ shape_node nd' = shape_node nd.
Proof.
  intros H E. pose proof (ss_nodes _ _ H n) as K. rewrite E in K. destruct (nodes s !! n) as [nd'|]; [|discriminate].
  exists nd'. split; [reflexivity|]. simpl in K. congruence.
Qed.
Lemma ss_out_l s s' o y : same_shape s s' -> outputs s !! o = Some y -> exists y', outputs s' !! o = Some y' /\ shape_out y' = shape_out y.
Proof.
  intros H E. pose proof (ss_outputs _ _ H o) as K. rewrite E in K. destruct (outputs s' !! o) as [y'|]; [|discriminate].
  exists y'. split; [reflexivity|]. simpl in K. congruence.
Qed.
Lemma ss_out_r s s' o y : same_shape s s' -> outputs s' !! o = Some y -> exists y', outputs s !! o = Some y' /\ shape_out y' = shape_out y.
Proof.
  intros H E. pose proof (ss_outputs _ _ H o) as K. rewrite E in K. destruct (outputs s !! o) as [y'|]; [|discriminate].
  exists y'. split; [reflexivity|]. simpl in K. congruence.
Qed.
Lemma shape_node_inv a b : shape_node a = shape_node b -> nd_id a = nd_id b /\ nd_inputs a = nd_inputs b /\ nd_outputs a = nd_outputs b.
Proof. intros H. injection H as H1 H2 H3. auto. Qed.
Lemma shape_out_inv a b : shape_out a = shape_out b -> out_owner a = out_owner b /\ out_index a = out_index b /\ out_type a = out_type b.
Proof. intros H. injection H as H1 H2 H3. auto. Qed.
Lemma same_shape_sym s s' : same_shape s s' -> same_shape s' s.
Proof. intros []. constructor; intros; symmetry; auto. Qed.
Lemma OwnO_shape s s' : same_shape s s' -> OwnO s -> OwnO s'.
Proof.
  intros H [A B]. constructor.
  - intros n k o. split.
    + intros (nd & Hn & Hk). destruct (ss_node_r _ _ _ _ H Hn) as (nd' & Hn' & E). apply shape_node_inv in E as (_ & _ & E).
      destruct (proj1 (A n k o)) as (y & Hy & E1 & E2). { exists nd'. rewrite E. auto. }
      destruct (ss_out_l _ _ _ _ H Hy) as (y' & Hy' & E3). apply shape_out_inv in E3 as (E3 & E4 & _). exists y'. split; [assumption|]. split; congruence.
    + intros (y & Hy & E1 & E2). destruct (ss_out_r _ _ _ _ H Hy) as (y' & Hy' & E3). apply shape_out_inv in E3 as (E3 & E4 & _).
      destruct (proj2 (A n k o)) as (nd & Hn & Hk). { exists y'. split; [assumption|]. split; congruence. }
      destruct (ss_node_l _ _ _ _ H Hn) as (nd' & Hn' & E). apply shape_node_inv in E as (_ & _ & E). exists nd'. rewrite E. auto.
  - intros k o. rewrite (ss_args _ _ H). rewrite B. split.
    + intros (y & Hy & E1 & E2). destruct (ss_out_l _ _ _ _ H Hy) as (y' & Hy' & E3). apply shape_out_inv in E3 as (E3 & E4 & _). exists y'. split; [assumption|]. split; congruence.
    + intros (y & Hy & E1 & E2). destruct (ss_out_r _ _ _ _ H Hy) as (y' & Hy' & E3). apply shape_out_inv in E3 as (E3 & E4 & _). exists y'. split; [assumption|]. split; congruence.
Qed.
Lemma Top_shape s s' : same_shape s s' -> Top s -> Top s'.
Proof.
  intros H [A B]. unfold Top. rewrite (ss_top _ _ H). split; [assumption|]. intros n. rewrite B. split.
  - intros (nd & Hn & E). destruct (ss_node_l _ _ _ _ H Hn) as (nd' & Hn' & E'). apply shape_node_inv in E' as (_ & E' & _). exists nd'. split; congruence.
  - intros (nd & Hn & E). destruct (ss_node_r _ _ _ _ H Hn) as (nd' & Hn' & E'). apply shape_node_inv in E' as (_ & E' & _). exists nd'. split; congruence.
Qed.
Lemma AllN_shape s s' : same_shape s s' -> AllN s -> AllN s'.
Proof.
  intros H [A B]. unfold AllN. rewrite (ss_all _ _ H). split; [assumption|]. intros n. rewrite B.
  pose proof (ss_nodes _ _ H n) as K. destruct (nodes s !! n), (nodes s' !! n); try discriminate; split; intros [? ?]; eauto; discriminate.
Qed.
Lemma Ids_shape s s' : same_shape s s' -> Ids s -> Ids s'.
Proof.
  intros H [A B]. unfold Ids. rewrite (ss_id _ _ H). split.
  - intros n nd Hn. destruct (ss_node_r _ _ _ _ H Hn) as (nd' & Hn' & E). apply shape_node_inv in E as (E & _). rewrite <- E. eapply A; eassumption.
  - intros n m nd md Hn Hm E. destruct (ss_node_r _ _ _ _ H Hn) as (nd' & Hn' & E1). destruct (ss_node_r _ _ _ _ H Hm) as (md' & Hm' & E2).
    apply shape_node_inv in E1 as (E1 & _). apply shape_node_inv in E2 as (E2 & _). eapply B; [eassumption..|congruence].
Qed.
Lemma OwnI_shape s s' : same_shape s s' ->
  (forall i ow k, (exists x, inputs s' !! i = Some x /\ in_owner x = ow /\ in_index x = k) <-> (exists x, inputs s !! i = Some x /\ in_owner x = ow /\ in_index x = k)) ->
  OwnI s -> OwnI s'.
Proof.
  intros H HI [A B]. constructor.
  - intros n k i. rewrite HI, <- A. split.
    + intros (nd & Hn & Hk). destruct (ss_node_r _ _ _ _ H Hn) as (nd' & Hn' & E). apply shape_node_inv in E as (_ & E & _). exists nd'. rewrite E. auto.
    + intros (nd & Hn & Hk). destruct (ss_node_l _ _ _ _ H Hn) as (nd' & Hn' & E). apply shape_node_inv in E as (_ & E & _). exists nd'. rewrite E. auto.
  - intros k i. rewrite HI, (ss_results _ _ H). apply B.
Qed.

(** ** counting *)
Lemma total_ext s s' l : (forall o, o ∈ l -> nusers s o = nusers s' o) -> total s l = total s' l.
Proof.
  unfold total. induction l as [|o l IH]; intros H; simpl; [reflexivity|]. rewrite (H o) by now left. rewrite IH; [reflexivity|].
  intros o' Ho'. apply H. now right.
Qed.
Lemma total_update s s' l o : NoDup l -> o ∈ l -> (forall o', o' <> o -> nusers s' o' = nusers s o') ->
  total s' l + nusers s o = total s l + nusers s' o.
Proof.
  unfold total. induction l as [|a l IH]; intros Hn Ho H; [inversion Ho|]. apply NoDup_cons in Hn as [Ha Hn]. simpl.
  apply elem_of_cons in Ho as [->|Ho].
  - enough (sum_list_with (nusers s') l = sum_list_with (nusers s) l) by lia.
    apply total_ext. intros o' Ho'. apply H. intros ->. contradiction.
  - specialize (IH Hn Ho H). rewrite (H a); [lia|]. intros ->. contradiction.
Qed.
Lemma OwnO_nodup s n nd : OwnO s -> nodes s !! n = Some nd -> NoDup (nd_outputs nd).
Proof.
  intros H Hn. apply NoDup_alt. intros k k' o Hk Hk'.
  destruct (proj1 (o_node _ H n k o)) as (y & Hy & _ & E1). { eauto. }
  destruct (proj1 (o_node _ H n k' o)) as (y' & Hy' & _ & E2). { eauto. } congruence.
Qed.
Lemma OwnO_owner s o y n : OwnO s -> outputs s !! o = Some y -> out_owner y = ONode n ->
  exists nd, nodes s !! n = Some nd /\ o ∈ nd_outputs nd.
Proof.
  intros H Hy E. destruct (proj2 (o_node _ H n (out_index y) o)) as (nd & Hn & Hk). { eauto. }
  exists nd. split; [assumption|]. eapply elem_of_list_lookup_2; eassumption.
Qed.
Lemma OwnO_unique s o n m nd md : OwnO s -> nodes s !! n = Some nd -> nodes s !! m = Some md -> o ∈ nd_outputs nd -> o ∈ nd_outputs md -> n = m.
Proof.
  intros H Hn Hm Ho Ho'. apply elem_of_list_lookup in Ho as [k Hk]. apply elem_of_list_lookup in Ho' as [k' Hk'].
  destruct (proj1 (o_node _ H n k o)) as (y & Hy & E1 & _). { eauto. }
  destruct (proj1 (o_node _ H m k' o)) as (y' & Hy' & E2 & _). { eauto. } congruence.
Qed.
Lemma OwnO_arg_not_node s o y n nd : OwnO s -> outputs s !! o = Some y -> nodes s !! n = Some nd -> o ∈ nd_outputs nd -> out_owner y = ONode n.
Proof.
  intros H Hy Hn Ho. apply elem_of_list_lookup in Ho as [k Hk].
  destruct (proj1 (o_node _ H n k o)) as (y' & Hy' & E1 & _). { eauto. } congruence.
Qed.

Lemma users_nonzero s o y i : Edges None s -> outputs s !! o = Some y -> i ∈ out_users y -> 1 <= out_nusers y.
Proof.
  intros H Hy Hi. destruct (e_nodup _ _ H o y Hy) as [_ ->]. destruct (out_users y); [inversion Hi|simpl; lia].
Qed.
Ltac lk := repeat first [rewrite lookup_insert in *|rewrite lookup_insert_ne in * by congruence|rewrite lookup_delete in *|rewrite lookup_delete_ne in * by congruence].
Lemma Bottom_bump s s' o y n nd l' :
  OwnO s -> Bottom s ->
  outputs s !! o = Some y -> out_owner y = ONode n -> nodes s !! n = Some nd ->
  (forall m, m <> n -> nodes s' !! m = nodes s !! m) ->
  (exists k, nodes s' !! n = Some (with_succ k nd) /\ k + nusers s o = nd_succ nd + nusers s' o /\
     (forall m, m ∈ il_elems l' <-> (m <> n /\ m ∈ il_elems (bottom s)) \/ (m = n /\ k = 0))) ->
  (forall o', o' <> o -> nusers s' o' = nusers s o') ->
  bottom s' = l' -> il_ok l' -> Bottom s'.
Proof.
  intros HO HB Hy Hown Hn Hm (k & Hk & Hsum & Hl) Hu Hb Hok.
  destruct (OwnO_owner _ _ _ _ HO Hy Hown) as (nd0 & Hn0 & Hin). rewrite Hn in Hn0. injection Hn0 as <-.
  constructor.
  - intros m md Hmd. destruct (decide (m = n)) as [->|Hne].
    + rewrite Hk in Hmd. injection Hmd as <-. simpl.
      pose proof (total_update s s' (nd_outputs nd) o (OwnO_nodup _ _ _ HO Hn) Hin Hu) as E.
      rewrite <- (b_succ _ HB n nd Hn) in E. lia.
    + rewrite (Hm m Hne) in Hmd. rewrite (b_succ _ HB m md Hmd). apply total_ext. intros o' Ho'. symmetry. apply Hu.
      intros ->. apply Hne. eapply OwnO_unique; eassumption.
  - rewrite Hb. exact Hok.
  - intros m. rewrite Hb, Hl. destruct (decide (m = n)) as [->|Hne].
    + rewrite Hk. split; [intros [[? ?]|[_ ->]]; [congruence|eauto]|]. intros (md & E & E0). injection E as <-. right. split; [reflexivity|exact E0].
    + rewrite (Hm m Hne), (b_iff _ HB). split; [intros [[_ H]|[? ?]]; [exact H|congruence]|]. intros H. left. auto.
Qed.
Lemma Bottom_same s s' o y :
  OwnO s -> Bottom s -> outputs s !! o = Some y -> out_owner y = ORegion ->
  nodes s' = nodes s -> (forall o', o' <> o -> nusers s' o' = nusers s o') -> bottom s' = bottom s -> Bottom s'.
Proof.
  intros HO HB Hy Hown En Hu Eb. constructor.
  - intros m md Hmd. rewrite En in Hmd. rewrite (b_succ _ HB m md Hmd). apply total_ext. intros o' Ho'. symmetry. apply Hu.
    intros ->. pose proof (OwnO_arg_not_node _ _ _ _ _ HO Hy Hmd Ho'). congruence.
  - rewrite Eb. apply HB.
  - rewrite Eb, En. apply HB.
Qed.

Lemma remove_user_ok i x s : Core None s -> inputs s !! i = Some x ->
  exists s' o, in_origin x = Some o /\ remove_user i s = Some s' /\ Core (Some i) s' /\ same_shape s s' /\
    inputs s' = <[i := with_origin None x]> (inputs s) /\
    (forall o', users_of s' o' = if decide (o' = o) then filter (fun j => j <> i) (users_of s o) else users_of s o').
Proof.
  intros [HE HO HB] Hx. destruct (e_in _ _ HE i x Hx ltac:(discriminate)) as (o & y & Hxo & Hy & Hi & Hty).
  pose proof (users_nonzero s o y i HE Hy Hi) as Hpos. destruct (e_nodup _ _ HE o y Hy) as [Hnd Hlen].
  set (y' := with_users (filter (fun j => j <> i) (out_users y)) (pred (out_nusers y)) y).
  set (s1 := set_outputs <[o := y']> (set_inputs <[i := with_origin None x]> s)).
  assert (forall s', inputs s' = inputs s1 -> outputs s' = outputs s1 -> Edges (Some i) s') as HE'.
  { intros s' E1 E2. constructor; rewrite ?E1, ?E2; simpl.
    - intros j z Hz Hne. assert (j <> i) by congruence. rewrite lookup_insert_ne in Hz by auto.
      destruct (e_in _ _ HE j z Hz ltac:(discriminate)) as (o2 & y2 & F1 & F2 & F3 & F4). destruct (decide (o2 = o)) as [->|Ho].
      + exists o, y'. rewrite lookup_insert. rewrite Hy in F2. injection F2 as <-. split; [assumption|]. split; [reflexivity|].
        split; [|assumption]. simpl. apply elem_of_list_filter. auto.
      + exists o2, y2. rewrite lookup_insert_ne by auto. auto.
    - intros j z Hz E. injection E as <-. rewrite lookup_insert in Hz. injection Hz as <-. reflexivity.
    - intros o2 y2 j Hy2 Hj. destruct (decide (o2 = o)) as [->|Ho].
      + rewrite lookup_insert in Hy2. injection Hy2 as <-. simpl in Hj. apply elem_of_list_filter in Hj as [Hji Hj].
        rewrite lookup_insert_ne by auto. eapply e_users; eassumption.
      + rewrite lookup_insert_ne in Hy2 by auto. assert (j <> i). { intros ->. destruct (e_users _ _ HE _ _ _ Hy2 Hj) as (z & Hz & Hz'). congruence. }
        rewrite lookup_insert_ne by auto. eapply e_users; eassumption.
    - intros o2 y2 Hy2. destruct (decide (o2 = o)) as [->|Ho].
      + rewrite lookup_insert in Hy2. injection Hy2 as <-. simpl. split; [now apply NoDup_filter|].
        rewrite filter_ne_length by assumption. now rewrite Hlen.
      + rewrite lookup_insert_ne in Hy2 by auto. eapply e_nodup; eassumption. }
  assert (forall s', outputs s' = outputs s1 -> forall o', users_of s' o' = if decide (o' = o) then filter (fun j => j <> i) (users_of s o) else users_of s o') as HU.
  { intros s' E o'. unfold users_of. rewrite E. simpl. destruct (decide (o' = o)) as [->|Ho].
    - rewrite lookup_insert, Hy. reflexivity.
    - rewrite lookup_insert_ne by auto. reflexivity. }
  assert (forall s', outputs s' = outputs s1 -> forall o', o' <> o -> nusers s' o' = nusers s o') as HN.
  { intros s' E o' Ho. unfold nusers. rewrite E. simpl. rewrite lookup_insert_ne by auto. reflexivity. }
  assert (forall s', outputs s' = outputs s1 -> nusers s' o = pred (nusers s o)) as HN1.
  { intros s' E. unfold nusers. rewrite E. simpl. rewrite lookup_insert, Hy. reflexivity. }
  assert (nusers s o = out_nusers y) as HN2 by (unfold nusers; now rewrite Hy).
  assert (forall o', shape_out <$> outputs s !! o' = shape_out <$> outputs s1 !! o') as HS.
  { intros o'. simpl. destruct (decide (o' = o)) as [->|Ho]; [rewrite lookup_insert, Hy|rewrite lookup_insert_ne by auto]; reflexivity. }
  unfold remove_user. rewrite Hx. simpl. rewrite Hxo. simpl. rewrite Hy. simpl. rewrite decide_True by assumption.
  fold y'. fold s1. destruct (out_owner y) as [n|] eqn:Hown.
  - destruct (OwnO_owner _ _ _ _ HO Hy Hown) as (nd & Hn & Hin). change (nodes s1) with (nodes s). rewrite Hn. simpl.
    assert (1 <= nd_succ nd) as Hsucc.
    { rewrite (b_succ _ HB n nd Hn). clear -Hin Hpos HN2. unfold total. induction (nd_outputs nd) as [|a l IH]; [inversion Hin|].
      simpl. apply elem_of_cons in Hin as [->|Hin]; [lia|specialize (IH Hin); lia]. }
    assert (n ∉ il_elems (bottom s)) as Hnb. { intros H. apply (b_iff _ HB) in H as (nd' & E & E0). rewrite Hn in E. injection E as <-. lia. }
    set (s2 := set_nodes <[n := with_succ (pred (nd_succ nd)) nd]> s1).
    assert (forall m, shape_node <$> nodes s !! m = shape_node <$> nodes s2 !! m) as HSn.
    { intros m. simpl. destruct (decide (m = n)) as [->|Hm]; [rewrite lookup_insert, Hn|rewrite lookup_insert_ne by auto]; reflexivity. }
    destruct (decide (pred (nd_succ nd) = 0)) as [Hz|Hnz].
    + destruct (il_push_ok n (bottom s) (b_ok _ HB) Hnb) as (l' & Hp & Hok & Hl).
      unfold on_bottom_added. change (bottom s2) with (bottom s). rewrite Hp. simpl.
      assert (same_shape s (set_bottom l' s2)) as HSS by (constructor; try reflexivity; [exact HSn|exact HS]).
      eexists _, o. split; [reflexivity|]. split; [reflexivity|].
      split; [constructor|split; [exact HSS|split; [reflexivity|apply HU; reflexivity]]].
      * apply HE'; reflexivity.
      * exact (OwnO_shape _ _ HSS HO).
      * eapply (Bottom_bump s (set_bottom l' s2) o y n nd l' HO HB Hy Hown Hn); [| |apply HN; reflexivity|reflexivity|exact Hok].
        -- intros m Hm. simpl. now rewrite lookup_insert_ne by auto.
        -- exists (pred (nd_succ nd)). simpl. rewrite lookup_insert. split; [reflexivity|]. split; [rewrite (HN1 (set_bottom l' s2) eq_refl); lia|].
           intros m. rewrite Hl. destruct (decide (m = n)); [subst; tauto|tauto].
    + assert (same_shape s s2) as HSS by (constructor; try reflexivity; [exact HSn|exact HS]).
      eexists _, o. split; [reflexivity|]. split; [reflexivity|].
      split; [constructor|split; [exact HSS|split; [reflexivity|apply HU; reflexivity]]].
      * apply HE'; reflexivity.
      * exact (OwnO_shape _ _ HSS HO).
      * eapply (Bottom_bump s s2 o y n nd (bottom s) HO HB Hy Hown Hn); [| |apply HN; reflexivity|reflexivity|apply HB].
        -- intros m Hm. simpl. now rewrite lookup_insert_ne by auto.
        -- exists (pred (nd_succ nd)). simpl. rewrite lookup_insert. split; [reflexivity|]. split; [rewrite (HN1 s2 eq_refl); lia|].
           intros m. destruct (decide (m = n)); [subst; tauto|tauto].
  - assert (same_shape s s1) as HSS by (constructor; try reflexivity; exact HS).
    eexists _, o. split; [reflexivity|]. split; [reflexivity|].
    split; [constructor|split; [exact HSS|split; [reflexivity|apply HU; reflexivity]]].
    + apply HE'; reflexivity.
    + exact (OwnO_shape _ _ HSS HO).
    + eapply (Bottom_same s s1 o y HO HB Hy Hown); [reflexivity|apply HN; reflexivity|reflexivity].
Qed.

Lemma add_user_ok i x o y s : Core (Some i) s -> inputs s !! i = Some x -> outputs s !! o = Some y -> in_type x = out_type y ->
  exists s', add_user i o s = Some s' /\ Core None s' /\ same_shape s s' /\
    inputs s' = <[i := with_origin (Some o) x]> (inputs s) /\
    (forall o', users_of s' o' = if decide (o' = o) then users_of s o ++ [i] else users_of s o').
Proof.
  intros [HE HO HB] Hx Hy Hty.
  pose proof (e_det _ _ HE i x Hx eq_refl) as Hnone.
  assert (forall o2 y2, outputs s !! o2 = Some y2 -> i ∉ out_users y2) as Hout.
  { intros o2 y2 Hy2 Hi. destruct (e_users _ _ HE _ _ _ Hy2 Hi) as (z & Hz & Hz'). congruence. }
  destruct (e_nodup _ _ HE o y Hy) as [Hnd Hlen].
  set (y' := with_users (out_users y ++ [i]) (S (out_nusers y)) y).
  set (s1 := set_outputs <[o := y']> (set_inputs <[i := with_origin (Some o) x]> s)).
  assert (forall s', inputs s' = inputs s1 -> outputs s' = outputs s1 -> Edges None s') as HE'.
  { intros s' E1 E2. constructor; rewrite ?E1, ?E2; simpl.
    - intros j z Hz _. destruct (decide (j = i)) as [->|Hji].
      + rewrite lookup_insert in Hz. injection Hz as <-. exists o, y'. rewrite lookup_insert. split; [reflexivity|]. split; [reflexivity|].
        split; [|exact Hty]. simpl. apply elem_of_app. right. now left.
      + rewrite lookup_insert_ne in Hz by auto.
        destruct (e_in _ _ HE j z Hz ltac:(congruence)) as (o2 & y2 & F1 & F2 & F3 & F4). destruct (decide (o2 = o)) as [->|Ho].
        * exists o, y'. rewrite lookup_insert. rewrite Hy in F2. injection F2 as <-. split; [assumption|]. split; [reflexivity|].
          split; [|assumption]. simpl. apply elem_of_app. now left.
        * exists o2, y2. rewrite lookup_insert_ne by auto. auto.
    - intros j z Hz E. discriminate.
    - intros o2 y2 j Hy2 Hj. destruct (decide (o2 = o)) as [->|Ho].
      + rewrite lookup_insert in Hy2. injection Hy2 as <-. simpl in Hj. apply elem_of_app in Hj as [Hj|Hj].
        * assert (j <> i) by (intros ->; eapply Hout; eassumption). rewrite lookup_insert_ne by auto. eapply e_users; eassumption.
        * apply elem_of_list_singleton in Hj. subst j. rewrite lookup_insert. eexists. split; reflexivity.
      + rewrite lookup_insert_ne in Hy2 by auto. assert (j <> i) by (intros ->; eapply Hout; eassumption).
        rewrite lookup_insert_ne by auto. eapply e_users; eassumption.
    - intros o2 y2 Hy2. destruct (decide (o2 = o)) as [->|Ho].
      + rewrite lookup_insert in Hy2. injection Hy2 as <-. simpl. split; [|rewrite app_length, Hlen; simpl; lia].
        apply NoDup_app. split; [assumption|]. split; [|apply NoDup_singleton].
        intros j Hj Hj'. apply elem_of_list_singleton in Hj'. subst j. eapply Hout; eassumption.
      + rewrite lookup_insert_ne in Hy2 by auto. eapply e_nodup; eassumption. }
  assert (forall s', outputs s' = outputs s1 -> forall o', users_of s' o' = if decide (o' = o) then users_of s o ++ [i] else users_of s o') as HU.
  { intros s' E o'. unfold users_of. rewrite E. simpl. destruct (decide (o' = o)) as [->|Ho].
    - rewrite lookup_insert, Hy. reflexivity.
    - rewrite lookup_insert_ne by auto. reflexivity. }
  assert (forall s', outputs s' = outputs s1 -> forall o', o' <> o -> nusers s' o' = nusers s o') as HN.
  { intros s' E o' Ho. unfold nusers. rewrite E. simpl. rewrite lookup_insert_ne by auto. reflexivity. }
  assert (forall s', outputs s' = outputs s1 -> nusers s' o = S (nusers s o)) as HN1.
  { intros s' E. unfold nusers. rewrite E. simpl. rewrite lookup_insert, Hy. reflexivity. }
  assert (forall o', shape_out <$> outputs s !! o' = shape_out <$> outputs s1 !! o') as HS.
  { intros o'. simpl. destruct (decide (o' = o)) as [->|Ho]; [rewrite lookup_insert, Hy|rewrite lookup_insert_ne by auto]; reflexivity. }
  unfold add_user. rewrite Hx. simpl. rewrite Hy. simpl. rewrite decide_False by (eapply Hout; eassumption).
  fold y'. destruct (out_owner y) as [n|] eqn:Hown.
  - destruct (OwnO_owner _ _ _ _ HO Hy Hown) as (nd & Hn & Hin).
    set (s0 := set_inputs <[i := with_origin (Some o) x]> s) in *. change (nodes s0) with (nodes s). rewrite Hn. simpl.
    destruct (decide (nd_succ nd = 0)) as [Hz|Hnz].
    + assert (n ∈ il_elems (bottom s)) as Hnb by (apply (b_iff _ HB); eauto).
      destruct (il_erase_ok n (bottom s) (b_ok _ HB) Hnb) as (l' & Hp & Hok & Hl).
      unfold on_bottom_removed. change (bottom s0) with (bottom s). rewrite Hp. simpl.
      set (s2 := set_outputs <[o := y']> (set_nodes <[n := with_succ (S (nd_succ nd)) nd]> (set_bottom l' s0))).
      assert (forall m, shape_node <$> nodes s !! m = shape_node <$> nodes s2 !! m) as HSn.
      { intros m. simpl. destruct (decide (m = n)) as [->|Hm]; [rewrite lookup_insert, Hn|rewrite lookup_insert_ne by auto]; reflexivity. }
      assert (same_shape s s2) as HSS by (constructor; try reflexivity; [exact HSn|exact HS]).
      eexists. split; [reflexivity|].
      split; [constructor|split; [exact HSS|split; [reflexivity|apply HU; reflexivity]]].
      * apply HE'; reflexivity.
      * exact (OwnO_shape _ _ HSS HO).
      * eapply (Bottom_bump s s2 o y n nd l' HO HB Hy Hown Hn); [| |apply HN; reflexivity|reflexivity|exact Hok].
        -- intros m Hm. simpl. now rewrite lookup_insert_ne by auto.
        -- exists (S (nd_succ nd)). simpl. rewrite lookup_insert. split; [reflexivity|]. split; [rewrite (HN1 s2 eq_refl); lia|].
           intros m. rewrite Hl. destruct (decide (m = n)); [subst; intuition lia|tauto].
    + set (s2 := set_outputs <[o := y']> (set_nodes <[n := with_succ (S (nd_succ nd)) nd]> s0)).
      assert (forall m, shape_node <$> nodes s !! m = shape_node <$> nodes s2 !! m) as HSn.
      { intros m. simpl. destruct (decide (m = n)) as [->|Hm]; [rewrite lookup_insert, Hn|rewrite lookup_insert_ne by auto]; reflexivity. }
      assert (n ∉ il_elems (bottom s)) as Hnb. { intros H. apply (b_iff _ HB) in H as (nd' & E & E0). rewrite Hn in E. injection E as <-. lia. }
      assert (same_shape s s2) as HSS by (constructor; try reflexivity; [exact HSn|exact HS]).
      eexists. split; [reflexivity|].
      split; [constructor|split; [exact HSS|split; [reflexivity|apply HU; reflexivity]]].
      * apply HE'; reflexivity.
      * exact (OwnO_shape _ _ HSS HO).
      * eapply (Bottom_bump s s2 o y n nd (bottom s) HO HB Hy Hown Hn); [| |apply HN; reflexivity|reflexivity|apply HB].
        -- intros m Hm. simpl. now rewrite lookup_insert_ne by auto.
        -- exists (S (nd_succ nd)). simpl. rewrite lookup_insert. split; [reflexivity|]. split; [rewrite (HN1 s2 eq_refl); lia|].
           intros m. destruct (decide (m = n)); [subst; intuition lia|tauto].
  - simpl. assert (same_shape s s1) as HSS by (constructor; try reflexivity; exact HS).
    eexists. split; [reflexivity|].
    split; [constructor|split; [exact HSS|split; [reflexivity|apply HU; reflexivity]]].
    + apply HE'; reflexivity.
    + exact (OwnO_shape _ _ HSS HO).
    + eapply (Bottom_same s s1 o y HO HB Hy Hown); [reflexivity|apply HN; reflexivity|reflexivity].
Qed.
