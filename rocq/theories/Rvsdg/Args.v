(** Facts about the arguments mentioned in equations. *)
From stdpp Require Import base list list_numbers fin_sets gmap.
From Verif.Rvsdg Require Import Model Spec Sem Wf WfFacts.

Lemma fst_mjoin {A B C} (f : A -> list (B * C)) l : (mjoin (map f l)).*1 = mjoin (map (fun x => (f x).*1) l).
Proof. induction l as [|x l IH]; [done|]. change (mjoin (map f (x :: l))) with (f x ++ mjoin (map f l)). rewrite fmap_app, IH. done. Qed.
Lemma nkeys_eq id k ins outs subs : (ndefs (Node id k ins outs subs)).*1 = outs ++ mjoin (map (fun r => rargs r ++ (rdefs r).*1) subs).
Proof.
  cbn [ndefs]. rewrite fmap_app, index_fst. f_equal. rewrite fst_mjoin. f_equal. apply map_ext. intros r. by rewrite fmap_app, index_fst.
Qed.
Lemma rkeys_eq args res ns : (rdefs (Region args res ns)).*1 = mjoin (map (fun n => (ndefs n).*1) ns).
Proof. cbn [rdefs]. apply fst_mjoin. Qed.
Lemma NoDup_mjoin_elem {A B} (f : A -> list B) l x : NoDup (mjoin (map f l)) -> x ∈ l -> NoDup (f x).
Proof.
  induction l as [|y l IH]; [by intros _ ?%elem_of_nil|]. change (mjoin (map f (y :: l))) with (f y ++ mjoin (map f l)).
  rewrite NoDup_app, elem_of_cons. intros (H1 & _ & H2) [->|?]; auto.
Qed.
Lemma keys_sub id k ins outs subs r : NoDup (ndefs (Node id k ins outs subs)).*1 -> r ∈ subs -> NoDup (rargs r) /\ NoDup (rdefs r).*1.
Proof. rewrite nkeys_eq. intros (_ & _ & H)%NoDup_app Hr. pose proof (NoDup_mjoin_elem _ _ _ H Hr) as (H1 & _ & H2)%NoDup_app. done. Qed.
Lemma keys_node args res ns n : NoDup (rdefs (Region args res ns)).*1 -> n ∈ ns -> NoDup (ndefs n).*1.
Proof. rewrite rkeys_eq. intros H Hn. exact (NoDup_mjoin_elem _ _ _ H Hn). Qed.
Lemma fst_zip_eq {A B} (l : list A) (k : list B) : length l = length k -> (zip l k).*1 = l.
Proof. intros. by apply fst_zip; lia. Qed.

(** a property of equations that holds of the equations a node makes for its own outputs and arguments *)
Section Views.
  Context (P : (oid * view -> Prop) -> oid -> view -> Prop).
  Context (Pmono : forall (D D' : oid * view -> Prop) o w, (forall d, D d -> D' d) -> P D o w -> P D' o w).
  Context (Pown : forall id k ins outs subs o w, wf_node (Node id k ins outs subs) -> NoDup (ndefs (Node id k ins outs subs)).*1 ->
    ((exists i, outs !! i = Some o /\ w = out_view id k ins outs subs i) \/ (exists r i, r ∈ subs /\ rargs r !! i = Some o /\ w = arg_view k ins outs r i)) ->
    P (fun d => d ∈ ndefs (Node id k ins outs subs)) o w).
  Lemma views_ind : (forall n, wf_node n -> NoDup (ndefs n).*1 -> forall o w, (o, w) ∈ ndefs n -> P (fun d => d ∈ ndefs n) o w) /\
    (forall r, wf_region r -> NoDup (rdefs r).*1 -> forall o w, (o, w) ∈ rdefs r -> P (fun d => d ∈ rdefs r) o w).
  Proof using Pmono Pown.
    apply tree_ind.
    - intros id k ins outs subs IH Hw Hn o w H. pose proof H as H0. apply ndefs_unfold in H as [H|(r & Hr & [H|H])].
      + apply elem_of_index in H. apply Pown; [done | done | by left].
      + apply elem_of_index in H as (i & Hi & ->). apply Pown; [done | done |]. right. eauto.
      + rewrite Forall_forall in IH. eapply Pmono; [|apply (IH r Hr); [|by eapply keys_sub|exact H]].
        * intros d Hd. apply ndefs_unfold. eauto.
        * apply wf_node_unfold in Hw as [_ Hw]. rewrite Forall_forall in Hw. auto.
    - intros args res ns IH [Hw _] Hn o w (n & Hin & H)%rdefs_unfold. apply wf_list_Forall in Hw. rewrite Forall_forall in IH, Hw.
      eapply Pmono; [|apply (IH n Hin); [auto | by eapply keys_node | exact H]]. intros d Hd. apply rdefs_unfold. eauto.
  Qed.
  Lemma views_defs t : wf_region t -> NoDup (defs t).*1 -> (forall D a, P D a (VImport a)) -> forall o w, (o, w) ∈ defs t -> P (fun d => d ∈ defs t) o w.
  Proof using Pmono Pown.
    intros Hw Hn Hi o w H. unfold defs in *. apply elem_of_app in H as [H|H].
    - apply elem_of_list_In, in_map_iff in H as (a & [= <- <-] & _). apply Hi.
    - rewrite fmap_app in Hn. apply NoDup_app in Hn as (_ & _ & Hn). eapply Pmono; [|by apply (proj2 views_ind)]. intros d Hd. apply elem_of_app. by right.
  Qed.
End Views.

Definition gargs_ok (D : oid * view -> Prop) (o : oid) (w : view) : Prop :=
  match w with
  | VGamma p brs => forall x c es, (x, c, es) ∈ brs -> NoDup (c :: es.*1) /\ forall a y, (a, y) ∈ (c, p) :: es -> D (a, VGammaArg y)
  | VTheta p q i lvs => NoDup lvs.*1.*1 /\ (forall a x y, (a, x, y) ∈ lvs -> exists out, D (a, VThetaArg out x)) /\
      exists a, (a, i, q) ∈ lvs /\ D (a, VThetaArg o i)
  | _ => True
  end.
Lemma args_ok t o w : wf_region t -> NoDup (defs t).*1 -> (o, w) ∈ defs t -> gargs_ok (fun d => d ∈ defs t) o w.
Proof.
  intros Hw Hn. apply (views_defs gargs_ok); [| |done|done|done].
  - clear. intros D D' o w H. destruct w; cbn [gargs_ok]; try done.
    + intros H1 x c es Hin. destruct (H1 _ _ _ Hin) as [? H2]. split; [done|]. intros a y Ha. apply H. by apply H2.
    + intros (H1 & H2 & (a & Ha & HD)). split; [done|]. split; [intros a0 x y Hin; destruct (H2 _ _ _ Hin) as [out ?]; exists out; by apply H | exists a; split; [done | by apply H]].
  - clear. intros id k ins outs subs o w Hw Hn Ho. pose proof Hw as [Hsh _]%wf_node_unfold. destruct Ho as [(i & Hi & ->)|(r & i & Hr & Hi & ->)].
    2:{ unfold arg_view. destruct k; repeat case_decide; done. }
    destruct k; cbn [out_view gargs_ok]; try done; cbn [shape] in Hsh.
    + destruct Hsh as [Hne Hf]. intros x c es Hin. apply elem_of_list_fmap in Hin as (r & [= -> -> ->] & Hr). rewrite Forall_forall in Hf. destruct (Hf r Hr) as [Hl _].
      destruct (keys_sub _ _ _ _ _ _ Hn Hr) as [Hna _]. destruct ins as [|p ins]; [done|]. destruct (rargs r) as [|c args] eqn:Ea; [done|]. cbn [nth tail]. injection Hl as Hl. rewrite fst_zip_eq by done.
      split; [done|]. intros a y Hay. apply ndefs_unfold. right. exists r. split; [done|]. left. apply elem_of_index. rewrite Ea. cbn [arg_view].
      apply elem_of_cons in Hay as [[= -> ->]|Hay]; [exists 0; done|]. apply elem_of_list_lookup in Hay as [j Hj]. apply lookup_zip_with_Some in Hj as (a' & y' & [= <- <-] & H1 & H2). exists (S j). split; [done|].
      cbn [nth]. by rewrite (nth_elem _ _ _ _ H2).
    + destruct Hsh as (r & -> & H1 & H2 & H3). cbn [nth]. destruct (keys_sub _ _ _ _ _ r Hn ltac:(left)) as [Hna _]. unfold loop_vars.
      assert (Hz : (zip (zip (rargs r) ins) (tail (rres r))).*1 = zip (rargs r) ins).
      { apply fst_zip_eq. rewrite zip_with_length. destruct (rres r); cbn in *; lia. }
      split; [|split].
      * rewrite Hz. by rewrite fst_zip_eq.
      * intros a x y Hin. apply elem_of_list_lookup in Hin as [j Hj]. apply lookup_zip_with_Some in Hj as (ax & y' & [= <- <-] & G1 & G2). apply lookup_zip_with_Some in G1 as (a' & x' & [= <- <-] & G3 & G4).
        exists (nth j outs 0). apply ndefs_unfold. right. exists r. split; [left|]. left. apply elem_of_index. exists j. split; [done|]. cbn [arg_view]. by rewrite (nth_elem _ _ _ _ G4).
      * pose proof (lookup_lt_Some _ _ _ Hi) as Hlt. destruct (lookup_lt_is_Some_2 (rargs r) i) as [a Ha]; [lia|]. destruct (lookup_lt_is_Some_2 ins i) as [x Hx]; [lia|].
        destruct (lookup_lt_is_Some_2 (rres r) (S i)) as [y Hy]; [lia|]. exists a. rewrite (nth_elem _ _ _ _ Hx), (nth_elem _ _ _ _ Hy). split.
        -- apply elem_of_list_lookup. exists i. apply lookup_zip_with_Some. exists (a, x), y. split; [done|]. split; [apply lookup_zip_with_Some; eauto|]. destruct (rres r); done.
        -- apply ndefs_unfold. right. exists r. split; [left|]. left. apply elem_of_index. exists i. split; [done|]. cbn [arg_view]. by rewrite (nth_elem _ _ _ _ Hx), (nth_elem _ _ _ _ Hi).
Qed.
