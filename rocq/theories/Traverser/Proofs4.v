(** The edges of a region, and what the notifications of the region do. *)
From stdpp Require Import base list gmap.
From Verif.Region Require Import Model Spec Proofs Proofs2 Proofs3 Proofs4 Proofs5 Proofs6 Proofs7 Proofs8 Proofs9.
From Verif.Traverser Require Import Model Proofs Proofs2 Proofs3.

(** top down, the owner of an input waits for the node of its origin *)
Definition E_td (r : region) : edges := (fun x => (in_origin x ≫= output_node r, owner_node (in_owner x))) <$> inputs r.
(** bottom up, the other way round *)
Definition E_bu (r : region) : edges := (fun e => (e.2, e.1)) <$> E_td r.

Lemma E_td_lookup r i : E_td r !! i = (fun x => (in_origin x ≫= output_node r, owner_node (in_owner x))) <$> inputs r !! i.
Proof. apply lookup_fmap. Qed.
Lemma E_td_some r i f w : E_td r !! i = Some (f, w) <-> exists x, inputs r !! i = Some x /\ f = in_origin x ≫= output_node r /\ w = owner_node (in_owner x).
Proof.
  rewrite E_td_lookup. destruct (inputs r !! i) as [x|]; simpl.
  - split; [intros E; injection E as <- <-; eauto|]. intros (x' & E & -> & ->). injection E as <-. reflexivity.
  - split; [discriminate|]. intros (x & E & _). discriminate.
Qed.
Lemma E_bu_some r i f w : E_bu r !! i = Some (f, w) <-> E_td r !! i = Some (w, f).
Proof.
  unfold E_bu. rewrite lookup_fmap. destruct (E_td r !! i) as [[a c]|]; simpl; [|split; discriminate].
  split; intros E; injection E as <- <-; reflexivity.
Qed.
Lemma td_snd r i : E_td r !! i ≫= snd = input_node r i.
Proof. rewrite E_td_lookup. unfold input_node. destruct (inputs r !! i); reflexivity. Qed.
Lemma td_fst r i f w : E_td r !! i = Some (f, w) -> origin_node r i = f /\ input_node r i = w.
Proof. intros H. apply E_td_some in H as (x & Hx & -> & ->). unfold origin_node, input_node. rewrite Hx. auto. Qed.
Lemma bu_snd r i : E_bu r !! i ≫= snd = origin_node r i.
Proof. unfold E_bu. rewrite lookup_fmap, E_td_lookup. unfold origin_node. destruct (inputs r !! i); reflexivity. Qed.
Lemma output_node_some r o n : OwnO r -> output_node r o = Some n <-> exists nd, nodes r !! n = Some nd /\ o ∈ nd_outputs nd.
Proof.
  intros HO. unfold output_node. split.
  - destruct (outputs r !! o) as [y|] eqn:Hy; [|discriminate]. simpl. destruct (out_owner y) as [m|] eqn:Ho; [|discriminate]. intros E. injection E as ->.
    destruct (proj2 (o_node _ HO n (out_index y) o)) as (nd & Hn & Hk); [eauto|]. exists nd. split; [assumption|]. eapply elem_of_list_lookup_2; exact Hk.
  - intros (nd & Hn & Ho). apply elem_of_list_lookup in Ho as [k Hk]. destruct (proj1 (o_node _ HO n k o)) as (y & Hy & F & _); [eauto|]. rewrite Hy. simpl. now rewrite F.
Qed.
Lemma input_node_some r i n : OwnI r -> input_node r i = Some n <-> exists nd, nodes r !! n = Some nd /\ i ∈ nd_inputs nd.
Proof.
  intros HI. unfold input_node. split.
  - destruct (inputs r !! i) as [x|] eqn:Hx; [|discriminate]. simpl. destruct (in_owner x) as [m|] eqn:Ho; [|discriminate]. intros E. injection E as ->.
    destruct (proj2 (i_node _ HI n (in_index x) i)) as (nd & Hn & Hk); [eauto|]. exists nd. split; [assumption|]. eapply elem_of_list_lookup_2; exact Hk.
  - intros (nd & Hn & Ho). apply elem_of_list_lookup in Ho as [k Hk]. destruct (proj1 (i_node _ HI n k i)) as (x & Hx & F & _); [eauto|]. rewrite Hx. simpl. now rewrite F.
Qed.
Lemma td_to_node r i f n : OwnI r -> E_td r !! i = Some (f, Some n) -> is_node r n.
Proof. intros HI H. apply td_fst in H as [_ H]. apply input_node_some in H as (nd & Hn & _); [|assumption]. now exists nd. Qed.
Lemma td_from_node r i n w : OwnO r -> E_td r !! i = Some (Some n, w) -> is_node r n.
Proof.
  intros HO H. apply E_td_some in H as (x & Hx & Hf & _). destruct (in_origin x) as [o|]; [|discriminate]. simpl in Hf. symmetry in Hf.
  apply output_node_some in Hf as (nd & Hn & _); [|assumption]. now exists nd.
Qed.
Lemma in_node_inputs r i n : OwnI r -> i ∈ node_inputs r n <-> input_node r i = Some n.
Proof.
  intros HI. rewrite input_node_some by assumption. unfold node_inputs. destruct (nodes r !! n) as [nd|]; split.
  - intros H. eauto.
  - intros (nd' & E & H). injection E as <-. assumption.
  - intros H. inversion H.
  - intros (nd & E & _). discriminate.
Qed.
Lemma node_inputs_nodup r n : OwnI r -> NoDup (node_inputs r n).
Proof. intros HI. unfold node_inputs. destruct (nodes r !! n) as [nd|] eqn:Hn; [|constructor]. eapply OwnI_nodup; eassumption. Qed.
Lemma deg_td r n : OwnI r -> deg (E_td r) n = ninputs r n.
Proof.
  intros HI. assert (ninputs r n = length (node_inputs r n)) as -> by (unfold ninputs, node_inputs; now destruct (nodes r !! n)).
  apply size_list; [now apply node_inputs_nodup|]. intros i. rewrite in_node_inputs by assumption. split.
  - intros H. unfold input_node in H. destruct (inputs r !! i) as [x|] eqn:Hx; [|discriminate]. simpl in H. exists (in_origin x ≫= output_node r, owner_node (in_owner x)). split; [apply E_td_some; eauto|exact H].
  - intros ([f w] & H & Hw). cbn in Hw. subst. now apply td_fst in H as [_ H].
Qed.

Lemma outputs_nodup r n nd : OwnO r -> nodes r !! n = Some nd -> NoDup (nd_outputs nd).
Proof.
  intros HO Hn. apply NoDup_alt. intros k k' o Hk Hk'.
  destruct (proj1 (o_node _ HO n k o)) as (y & Hy & _ & E1); [eauto|]. destruct (proj1 (o_node _ HO n k' o)) as (y' & Hy' & _ & E2); [eauto|]. congruence.
Qed.
Lemma users_at_in r o i : Edges None r -> i ∈ users_at r o <-> exists x, inputs r !! i = Some x /\ in_origin x = Some o.
Proof.
  intros HE. unfold users_at. split.
  - destruct (outputs r !! o) as [y|] eqn:Hy; [|intros K; inversion K]. apply (e_users _ _ HE o y i Hy).
  - intros (x & Hx & Ho). destruct (e_in _ _ HE i x Hx ltac:(discriminate)) as (o' & y & E & Hy & Hin & _). assert (o' = o) as -> by congruence. now rewrite Hy.
Qed.
Lemma users_at_nodup r o : Edges None r -> NoDup (users_at r o).
Proof. intros HE. unfold users_at. destruct (outputs r !! o) as [y|] eqn:Hy; [exact (proj1 (e_nodup _ _ HE o y Hy))|constructor]. Qed.
Lemma users_concat_nodup r l : Edges None r -> NoDup l -> NoDup (concat (map (users_at r) l)).
Proof.
  intros HE. induction l as [|o l IH]; intros Hnd; [constructor|]. apply NoDup_cons in Hnd as [Ho Hnd]. cbn [map concat]. apply NoDup_app. split; [now apply users_at_nodup|].
  split; [|auto]. intros i Hi Hi'. apply users_at_in in Hi as (x & Hx & E); [|assumption]. apply elem_of_list_In, in_concat in Hi' as (k & Hk & Hi').
  apply in_map_iff in Hk as (o' & <- & Ho'). apply elem_of_list_In in Hi', Ho'. apply users_at_in in Hi' as (x' & Hx' & E'); [|assumption]. apply Ho. congruence.
Qed.
Lemma in_node_users r i n : Core None r -> i ∈ node_users r n <-> origin_node r i = Some n.
Proof.
  intros [HE HO HB]. unfold node_users. split.
  - destruct (nodes r !! n) as [nd|] eqn:Hn; [|intros K; inversion K]. intros H. apply elem_of_list_In, in_concat in H as (k & Hk & H).
    apply in_map_iff in Hk as (o & <- & Ho). apply elem_of_list_In in H, Ho. apply users_at_in in H as (x & Hx & E); [|assumption].
    unfold origin_node. rewrite Hx. simpl. rewrite E. simpl. apply output_node_some; [assumption|]. eauto.
  - unfold origin_node. destruct (inputs r !! i) as [x|] eqn:Hx; [|discriminate]. simpl. destruct (in_origin x) as [o|] eqn:Ho; [|discriminate]. simpl. intros H.
    apply output_node_some in H as (nd & Hn & H); [|assumption]. rewrite Hn. apply elem_of_list_In, in_concat. exists (users_at r o). split.
    + apply in_map_iff. exists o. split; [reflexivity|now apply elem_of_list_In].
    + apply elem_of_list_In. apply users_at_in; eauto.
Qed.
Lemma node_users_nodup r n : Core None r -> NoDup (node_users r n).
Proof. intros [HE HO HB]. unfold node_users. destruct (nodes r !! n) as [nd|] eqn:Hn; [|constructor]. apply users_concat_nodup; [assumption|]. eapply outputs_nodup; eassumption. Qed.
Lemma deg_bu r n : Core None r -> deg (E_bu r) n = nsuccessors r n.
Proof.
  intros HC. assert (nsuccessors r n = length (node_users r n)) as ->.
  { unfold nsuccessors, node_users. destruct (nodes r !! n) as [nd|] eqn:Hn; [|reflexivity]. destruct HC as [HE HO HB]. rewrite (b_succ _ HB n nd Hn). unfold total.
    generalize (nd_outputs nd). induction l as [|o l IH]; [reflexivity|]. cbn [sum_list_with map concat]. rewrite app_length, IH. f_equal.
    unfold nusers, users_at. destruct (outputs r !! o) as [y|] eqn:Hy; [|reflexivity]. exact (proj2 (e_nodup _ _ HE o y Hy)). }
  apply size_list; [now apply node_users_nodup|]. intros i. rewrite in_node_users by assumption. split.
  - intros H. pose proof H as H'. unfold origin_node in H. destruct (inputs r !! i) as [x|] eqn:Hx; [|discriminate]. simpl in H.
    exists (owner_node (in_owner x), Some n). split; [|reflexivity]. apply E_bu_some, E_td_some. exists x. auto.
  - intros ([f w] & H & Hw). cbn in Hw. subst. apply E_bu_some in H. now apply td_fst in H as [H _].
Qed.

(** when the edges are the same *)
Lemma E_td_same r r' : (forall i, (fun x => (in_origin x, in_owner x)) <$> inputs r' !! i = (fun x => (in_origin x, in_owner x)) <$> inputs r !! i) ->
  (forall i x o, inputs r !! i = Some x -> in_origin x = Some o -> output_node r' o = output_node r o) -> E_td r' = E_td r.
Proof.
  intros HI HO. apply map_eq. intros i. rewrite !E_td_lookup. specialize (HI i). destruct (inputs r' !! i) as [x'|], (inputs r !! i) as [x|] eqn:Hx; try discriminate; [|reflexivity].
  simpl in HI. injection HI as E1 E2. simpl. rewrite E1, E2. destruct (in_origin x) as [o|] eqn:Eo; [|reflexivity]. simpl. now rewrite (HO i x o Hx Eo).
Qed.
Lemma output_node_shape r r' o : shape_out <$> outputs r' !! o = shape_out <$> outputs r !! o -> output_node r' o = output_node r o.
Proof.
  unfold output_node. intros H. destruct (outputs r' !! o) as [y'|], (outputs r !! o) as [y|]; try discriminate; [|reflexivity]. simpl in *. injection H as H _ _. now rewrite H.
Qed.
Lemma E_td_insert r r' i x : inputs r' = <[i := x]> (inputs r) -> (forall o, output_node r' o = output_node r o) ->
  E_td r' = <[i := (in_origin x ≫= output_node r', owner_node (in_owner x))]> (E_td r).
Proof.
  intros HI HO. unfold E_td at 1. rewrite HI, fmap_insert. f_equal. apply map_fmap_ext. intros j z Hj. f_equal. destruct (in_origin z); [simpl; apply HO|reflexivity].
Qed.
Lemma E_td_delete r r' i : inputs r' = delete i (inputs r) -> (forall o, output_node r' o = output_node r o) -> E_td r' = delete i (E_td r).
Proof.
  intros HI HO. unfold E_td. rewrite HI, fmap_delete. f_equal. apply map_fmap_ext. intros j z Hj. f_equal. destruct (in_origin z); [simpl; apply HO|reflexivity].
Qed.
Lemma E_bu_insert r r' i f w : E_td r' = <[i := (f, w)]> (E_td r) -> E_bu r' = <[i := (w, f)]> (E_bu r).
Proof. intros H. unfold E_bu. rewrite H, fmap_insert. reflexivity. Qed.
Lemma E_bu_delete r r' i : E_td r' = delete i (E_td r) -> E_bu r' = delete i (E_bu r).
Proof. intros H. unfold E_bu. now rewrite H, fmap_delete. Qed.
Lemma E_bu_same r r' : E_td r' = E_td r -> E_bu r' = E_bu r.
Proof. intros H. unfold E_bu. now rewrite H. Qed.
(** outputs that have users keep their owner *)
Lemma owners_sub r r' o : OwnO r -> OwnO r' -> is_output r o -> is_output r' o ->
  (forall n nd', nodes r' !! n = Some nd' -> o ∈ nd_outputs nd' -> exists nd, nodes r !! n = Some nd /\ o ∈ nd_outputs nd) ->
  (o ∈ args r' -> o ∈ args r) -> output_node r' o = output_node r o.
Proof.
  intros HO HO' [y Hy] [y' Hy'] Hn Ha. destruct (output_node r' o) as [n|] eqn:E.
  - apply output_node_some in E as (nd & Hnd & Ho); [|assumption]. destruct (Hn n nd Hnd Ho) as (nd0 & H1 & H2). symmetry. apply output_node_some; eauto.
  - unfold output_node in E. rewrite Hy' in E. simpl in E. destruct (out_owner y') as [n|] eqn:F; [discriminate|].
    assert (o ∈ args r') as K. { eapply elem_of_list_lookup_2. apply (o_arg _ HO'). eauto. } apply Ha in K. apply elem_of_list_lookup in K as [k K]. apply (o_arg _ HO) in K as (y2 & Hy2 & F2 & _).
    unfold output_node. rewrite Hy2. simpl. now rewrite F2.
Qed.

(** ** the trackers' view of activation *)
Lemma is_visited_st t n : is_visited t n = bool_decide (st t n = Behind).
Proof. reflexivity. Qed.
Lemma td_activated_iff r t o : td_activated r t o = bool_decide (active t (output_node r o)).
Proof. unfold td_activated. destruct (output_node r o); [reflexivity|]. symmetry. apply bool_decide_eq_true. exact I. Qed.
Lemma td_input_activated_iff r t i : td_input_activated r t i = bool_decide (active t (origin_node r i)).
Proof. unfold td_input_activated. destruct (origin_node r i); [reflexivity|]. symmetry. apply bool_decide_eq_true. exact I. Qed.
Lemma bu_activated_iff r t i : bu_activated r t i = bool_decide (active t (input_node r i)).
Proof. unfold bu_activated. destruct (input_node r i); [reflexivity|]. symmetry. apply bool_decide_eq_true. exact I. Qed.
Lemma if_bool_decide {A} (P : Prop) `{Decision P} (a c : A) : (if bool_decide P then a else c) = if decide P then a else c.
Proof. unfold bool_decide, decide. destruct H; reflexivity. Qed.
