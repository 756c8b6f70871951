(** The reduction of invariant exit variables of a gamma node: when it is right, and when it is not. *)
From stdpp Require Import base list list_numbers fin_sets gmap.
From Verif.Rvsdg Require Import Model Spec Sem Wf WfFacts Args Det Sim Divert Refine Chase.
From Verif.Dne Require Import Model Spec ProofsIds ProofsMain ProofsList ProofsNode ProofsShrink.
From Verif.Ivr Require Import Model Spec ProofsRel ProofsWf ProofsMain GammaModel.

Lemma new_origin_spec l x : new_origin l x = x \/ (x, new_origin l x) ∈ l.
Proof. unfold new_origin. destruct (list_to_map l !! x) as [z|] eqn:E; [|by left]. right. by apply elem_of_list_to_map_2 in E. Qed.
Lemma reduce_moves_spec id k ins outs subs l : reduce_moves (Node id k ins outs subs) = Some l -> forall o z, (o, z) ∈ l -> exists j, outs !! j = Some o /\ reduce_exit_var ins subs j = Move z.
Proof.
  cbn [reduce_moves]. intros H o z Hoz. assert (Hg : forall m, Forall (fun '(j, o) => outs !! j = Some o) m -> foldr (fun '(k, o) l => l ← l; match reduce_exit_var ins subs k with Skip => Some l | Move z => Some ((o, z) :: l) | Crash => None end) (Some []) m = Some l -> exists j, outs !! j = Some o /\ reduce_exit_var ins subs j = Move z).
  { clear H. intros m. revert l Hoz. induction m as [|[j o'] m IH]; intros l Hoz Hm; [intros [= <-]; by apply elem_of_nil in Hoz|]. apply Forall_cons in Hm as [Ho Hm]. cbn [foldr]. intros (l' & Hl & H)%bind_Some.
    destruct (reduce_exit_var ins subs j) as [|z'|] eqn:E; [| |done]; injection H as <-.
    - by eapply IH.
    - apply elem_of_cons in Hoz as [Hoz|Hoz]; [injection Hoz; intros; subst; eauto | by eapply IH]. }
  refine (Hg (imap pair outs) _ H). apply Forall_forall. intros [j o1] (i0 & y & Hq & Hi)%elem_of_lookup_imap. by injection Hq as -> ->.
Qed.

Section Sub.
  Context (D : oid * view -> Prop) (s : oid -> oid) (Hs : forall x, chase D x (s x)).
  Lemma sub_list l : Forall2 (chase D) l (s <$> l).
  Proof using Hs. induction l; constructor; auto. Qed.
  Lemma vrel_vsub w : vrel D w (vsub s w).
  Proof using Hs.
    destruct w; cbn [vsub]; constructor; auto using sub_list.
    - apply Forall2_fmap_r, Forall_Forall2_diag, Forall_forall. intros [[x c] es] _. split; [apply Hs|]. split; [done|]. cbn [snd]. apply Forall2_fmap_r, Forall_Forall2_diag, Forall_forall. intros [a y] _. split; [done | apply Hs].
    - apply Forall2_fmap_r, Forall_Forall2_diag, Forall_forall. intros [[a x] y] _. split; [done|]. split; apply Hs.
  Qed.
End Sub.
(** outputs are only replaced by inputs of their node *)
Section Dok.
  Context (s : oid -> oid).
  Definition local_node (n : node) : Prop := forall x, x ∈ nouts n -> s x = x \/ s x ∈ nins n.
  Lemma dok_intro : (forall n, wf_node n -> (forall m, m ∈ nodes_in n -> local_node m /\ forall r a, r ∈ nsubs m -> a ∈ rargs r -> s a = a) -> dok_node s n) /\
    (forall r, wf_region r -> (forall a, a ∈ rargs r -> s a = a) -> (forall m, m ∈ nodes_of r -> local_node m /\ forall r a, r ∈ nsubs m -> a ∈ rargs r -> s a = a) -> dok_region s r).
  Proof using.
    apply tree_ind.
    - intros id k ins outs subs IH [_ Hw]%wf_node_unfold Hl. cbn [dok_node]. rewrite fold_and. rewrite Forall_forall in IH, Hw |- *. intros r Hr. apply IH; [done | auto | |].
      + destruct (Hl (Node id k ins outs subs)) as [_ H]; [left|]. intros a Ha. by eapply H.
      + intros m Hm. apply Hl. cbn [nodes_in]. right. apply elem_of_mjoin_map. eauto.
    - intros args res ns IH [Hw _] Ha Hl. cbn [dok_region]. rewrite fold_and. split; [intros x Hx; by rewrite (Ha x Hx)|].
      assert (Hself : forall n, n ∈ ns -> n ∈ nodes_of (Region args res ns)). { intros n Hn. cbn [nodes_of]. apply elem_of_mjoin_map. exists n. split; [done|]. destruct n. left. }
      split.
      + clear IH Ha. assert (Hl' : forall n, n ∈ ns -> local_node n) by (intros n Hn; by apply Hl, Hself). clear Hl Hself. revert Hw. generalize args. clear args res. induction ns as [|n ns IH]; intros av; [done|]. cbn [wf_list avail_ok]. intros (H1 & _ & H2). split.
        * intros x Hx. destruct (Hl' n ltac:(left) x Hx) as [->|Hin]; apply elem_of_app; [by right|]. left. rewrite Forall_forall in H1. auto.
        * apply IH; [|done]. intros m Hm. apply Hl'. by right.
      + apply wf_list_Forall in Hw. rewrite Forall_forall in IH, Hw |- *. intros n Hn. apply IH; [done | auto|]. intros m Hm. apply Hl. cbn [nodes_of]. apply elem_of_mjoin_map. eauto.
  Qed.
End Dok.

(** the hypothesis under which the reduction is right: an exit variable that is a branch argument in the first branch is the same entry variable in all branches *)
Definition same_entry_var (n : node) : Prop :=
  forall k, k < length (nouts n) -> forall r0 rs i, nsubs n = r0 :: rs -> branch_argument k r0 = Some i -> i <> 0 /\ forall r, r ∈ rs -> branch_argument k r = Some i.
Lemma node_defs_in : (forall n m, m ∈ nodes_in n -> forall d, d ∈ ndefs m -> d ∈ ndefs n) /\ (forall r m, m ∈ nodes_of r -> forall d, d ∈ ndefs m -> d ∈ rdefs r).
Proof.
  apply tree_ind.
  - intros id k ins outs subs IH m Hm d Hd. cbn [nodes_in] in Hm. apply elem_of_cons in Hm as [->|Hm]; [done|]. apply elem_of_mjoin_map in Hm as (r & Hr & Hm). rewrite Forall_forall in IH. apply ndefs_unfold. right. exists r. split; [done|]. right. by eapply IH.
  - intros args res ns IH m Hm d Hd. cbn [nodes_of] in Hm. apply elem_of_mjoin_map in Hm as (n & Hn & Hm). rewrite Forall_forall in IH. apply rdefs_unfold. exists n. split; [done|]. by eapply IH.
Qed.
Lemma wf_nodes_in : (forall n m, wf_node n -> m ∈ nodes_in n -> wf_node m) /\ (forall r m, wf_region r -> m ∈ nodes_of r -> wf_node m).
Proof.
  apply tree_ind.
  - intros id k ins outs subs IH m Hw Hm. cbn [nodes_in] in Hm. apply elem_of_cons in Hm as [->|Hm]; [done|]. apply elem_of_mjoin_map in Hm as (r & Hr & Hm). rewrite Forall_forall in IH. apply wf_node_unfold in Hw as [_ Hw]. rewrite Forall_forall in Hw. eapply IH; eauto.
  - intros args res ns IH m [Hw _] Hm. cbn [nodes_of] in Hm. apply elem_of_mjoin_map in Hm as (n & Hn & Hm). rewrite Forall_forall in IH. apply wf_list_Forall in Hw. rewrite Forall_forall in Hw. eapply IH; eauto.
Qed.

(** every output belongs to one node *)
Lemma sublist_mjoin3 {A B} (f g : A -> list B) l : Forall (fun x => f x `sublist_of` g x) l -> mjoin (map f l) `sublist_of` mjoin (map g l).
Proof. induction 1 as [|x l Hx _ IH]; [done|]. change (f x ++ mjoin (map f l) `sublist_of` g x ++ mjoin (map g l)). by apply sublist_app. Qed.
Lemma own_sub : (forall n, mjoin (map nouts (nodes_in n)) `sublist_of` (ndefs n).*1) /\ (forall r, mjoin (map nouts (nodes_of r)) `sublist_of` (rdefs r).*1).
Proof.
  assert (Hj : forall {A B C} (f : B -> list C) (g : A -> list B) l, mjoin (map f (mjoin (map g l))) = mjoin (map (fun x => mjoin (map f (g x))) l)).
  { intros A B C f g l. induction l as [|x l IH]; [done|]. change (mjoin (map g (x :: l))) with (g x ++ mjoin (map g l)). change (mjoin (map (fun x => mjoin (map f (g x))) (x :: l))) with (mjoin (map f (g x)) ++ mjoin (map (fun x => mjoin (map f (g x))) l)).
    rewrite map_app, <-IH. clear. induction (map f (g x)) as [|y k IHk]; [done|]. change (y ++ mjoin (k ++ map f (mjoin (map g l))) = (y ++ mjoin k) ++ mjoin (map f (mjoin (map g l)))). by rewrite IHk, app_assoc. }
  apply tree_ind.
  - intros id k ins outs subs IH. cbn [nodes_in]. rewrite nkeys_eq. change (mjoin (map nouts (?n :: ?l))) with (outs ++ mjoin (map nouts l)). apply sublist_app; [done|]. rewrite Hj. apply sublist_mjoin3. eapply Forall_impl; [exact IH|]. cbn beta. intros r Hr. etrans; [exact Hr | by apply sublist_inserts_l].
  - intros args res ns IH. cbn [nodes_of]. rewrite rkeys_eq, Hj. by apply sublist_mjoin3.
Qed.
Lemma mjoin_owner {A B} (f : A -> list B) l a b x : NoDup (mjoin (map f l)) -> a ∈ l -> b ∈ l -> x ∈ f a -> x ∈ f b -> a = b.
Proof.
  induction l as [|c l IH]; [by intros _ ?%elem_of_nil|]. change (mjoin (map f (c :: l))) with (f c ++ mjoin (map f l)). intros (_ & Hd & Hn)%NoDup_app Ha Hb Hxa Hxb.
  apply elem_of_cons in Ha as [->|Ha], Hb as [->|Hb]; auto; exfalso; apply (Hd x); auto; apply elem_of_mjoin_map; eauto.
Qed.
Lemma out_owner t m n x : NoDup (defs t).*1 -> m ∈ nodes_of t -> n ∈ nodes_of t -> x ∈ nouts m -> x ∈ nouts n -> m = n.
Proof.
  intros Hnd. apply mjoin_owner. eapply NoDup_sub; [|apply (proj2 own_sub)]. rewrite defs_keys_eq in Hnd. by apply NoDup_app in Hnd as (_ & _ & ?).
Qed.
Lemma out_defs t m x : m ∈ nodes_of t -> x ∈ nouts m -> exists i, nouts m !! i = Some x /\ (x, out_view (nid m) (nkind m) (nins m) (nouts m) (nsubs m) i) ∈ defs t.
Proof.
  intros Hm Hx. apply elem_of_list_lookup in Hx as [i Hi]. exists i. split; [done|]. unfold defs. apply elem_of_app. right. eapply (proj2 node_defs_in); [exact Hm|]. destruct m. apply ndefs_unfold. left. apply elem_of_index. eauto.
Qed.
Lemma arg_defs t m r x : m ∈ nodes_of t -> r ∈ nsubs m -> x ∈ rargs r -> exists i, rargs r !! i = Some x /\ (x, arg_view (nkind m) (nins m) (nouts m) r i) ∈ defs t.
Proof.
  intros Hm Hr Hx. apply elem_of_list_lookup in Hx as [i Hi]. exists i. split; [done|]. unfold defs. apply elem_of_app. right. eapply (proj2 node_defs_in); [exact Hm|]. destruct m. apply ndefs_unfold. right. exists r. split; [done|]. left. apply elem_of_index. eauto.
Qed.

Section Right.
  Context (t : region) (n : node) (Hwf : wf t) (Hn : n ∈ nodes_of t) (Hk : nkind n = Gamma) (Hsame : same_entry_var n).
  Lemma move_chase l o z : reduce_moves n = Some l -> (o, z) ∈ l -> chase (fun d => d ∈ defs t) o z /\ o ∈ nouts n /\ z ∈ nins n.
  Proof using All.
    intros Hl Hoz. destruct n as [id k ins outs subs]. cbn [nkind] in Hk. subst k. destruct (reduce_moves_spec _ _ _ _ _ _ Hl _ _ Hoz) as (j & Hj & Hr). cbn [nouts nins].
    destruct subs as [|r0 rs]; [done|]. cbn [reduce_exit_var] in Hr. destruct (branch_argument j r0) as [i|] eqn:Ei; [|done]. case_match; [done|]. destruct i as [|i]; [done|]. destruct (ins !! S i) as [z'|] eqn:Ez; [|done]. injection Hr as ->.
    split; [|split; by eapply elem_of_list_lookup_2]. destruct (Hsame j (lookup_lt_Some _ _ _ Hj) r0 rs (S i) eq_refl Ei) as [_ Hall].
    assert (Hall' : forall r, r ∈ r0 :: rs -> exists a, rres r !! j = Some a /\ rargs r !! S i = Some a).
    { intros r Hin. assert (Hba : branch_argument j r = Some (S i)) by (apply elem_of_cons in Hin as [->|Hin]; auto). unfold branch_argument in Hba. apply bind_Some in Hba as (a & Ha & Hp). apply position_lookup in Hp. eauto. }
    assert (Hd : (o, VGamma (nth 0 ins 0) (gamma_branch ins j <$> (r0 :: rs))) ∈ defs t).
    { unfold defs. apply elem_of_app. right. eapply (proj2 node_defs_in); [exact Hn|]. apply ndefs_unfold. left. apply elem_of_index. exists j. done. }
    assert (Hb : forall i' r c es, (gamma_branch ins j <$> (r0 :: rs)) !! i' = Some (r, c, es) -> r = nth i' (map (fun r => nth j (rres r) 0) (r0 :: rs)) 0 /\ nth i' (map (fun _ => z) (r0 :: rs)) 0 = z /\ (r, z) ∈ es).
    { intros i' r c es Hi. rewrite list_lookup_fmap in Hi. destruct ((r0 :: rs) !! i') as [r1|] eqn:E1; [|done]. cbn [fmap option_fmap option_map] in Hi. unfold gamma_branch in Hi. injection Hi as <- <- <-.
      rewrite (nth_elem (map _ (r0 :: rs)) i' 0 (nth j (rres r1) 0)), (nth_elem (map _ (r0 :: rs)) i' 0 z).
      2,3: change (map ?f ?l) with (f <$> l); by rewrite list_lookup_fmap, E1.
      split; [done|]. split; [done|]. destruct (Hall' r1) as (a & Ha & Hp); [by eapply elem_of_list_lookup_2|]. rewrite (nth_elem _ _ 0 _ Ha). apply elem_of_list_lookup. exists i. apply lookup_zip_with_Some. exists a, z. rewrite !lookup_tail. done. }
    eapply (chase_gamma _ o _ _ (map (fun r => nth j (rres r) 0) (r0 :: rs)) (map (fun _ => z) (r0 :: rs))); [exact Hd | | |]; intros i' r c es Hi; destruct (Hb _ _ _ _ Hi) as (H1 & H2 & H3).
    - rewrite <-H1. constructor.
    - by rewrite <-H1, H2.
    - rewrite H2. constructor.
  Qed.
  Lemma all_chase l x : reduce_moves n = Some l -> chase (fun d => d ∈ defs t) x (new_origin l x).
  Proof using All. intros Hl. destruct (new_origin_spec l x) as [-> |H]; [constructor|]. by apply (move_chase l) in H as [? _]. Qed.
  Lemma key_inj x w w' : (x, w) ∈ defs t -> (x, w') ∈ defs t -> w = w'.
  Proof using Hwf. clear -Hwf. destruct Hwf as (_ & Hnd & _). by eapply defs_fun. Qed.
  Lemma reduce_wf l : reduce_moves n = Some l -> wf (dregion (new_origin l) t).
  Proof using All.
    intros Hl. destruct Hwf as (Hw & Hnd & Hid). split; [|split].
    - apply (proj2 (wf_dregion _)); [done|].
      assert (Hmoved : forall x, new_origin l x <> x -> exists j, nouts n !! j = Some x /\ (x, out_view (nid n) (nkind n) (nins n) (nouts n) (nsubs n) j) ∈ defs t /\ new_origin l x ∈ nins n).
      { intros x Hx. destruct (new_origin_spec l x) as [?|H]; [done|]. destruct (move_chase l _ _ Hl H) as (_ & Ho & Hz). destruct (out_defs t n x Hn Ho) as (j & Hj & Hd). eauto. }
      apply (proj2 (dok_intro _)); [done | |].
      + intros a Ha. destruct (decide (new_origin l a = a)) as [|Hne]; [done|]. destruct (Hmoved a Hne) as (j & _ & Hd & _). assert (Hd2 : (a, VImport a) ∈ defs t). { unfold defs. apply elem_of_app. left. apply elem_of_list_In, in_map_iff. exists a. split; [done | by apply elem_of_list_In]. }
        pose proof (key_inj _ _ _ Hd Hd2) as He. rewrite Hk in He. done.
      + intros m Hm. split.
        * intros x Hx. destruct (decide (new_origin l x = x)) as [|Hne]; [by left|]. right. destruct (Hmoved x Hne) as (j & Hj & Hd & Hz). destruct (out_defs t m x Hm Hx) as (i & Hi & Hd2). assert (m = n) as ->; [|done].
          eapply (out_owner t); [done | exact Hm | exact Hn | exact Hx | by eapply elem_of_list_lookup_2].
        * intros r a Hr Ha. destruct (decide (new_origin l a = a)) as [|Hne]; [done|]. destruct (Hmoved a Hne) as (j & _ & Hd & _). destruct (arg_defs t m r a Hm Hr Ha) as (i & _ & Hd2). pose proof (key_inj _ _ _ Hd Hd2) as He. rewrite Hk in He. unfold out_view, arg_view in He. destruct (nkind m); repeat case_decide; done.
    - rewrite keys_dregion; done.
    - by rewrite (proj2 (ids_dsub _)).
  Qed.
  Lemma reduce_right {V : Type} (ctl : V -> option nat) (content : V -> V) (sem : nat -> list V -> option (list V)) (addr imp : nat -> V) t' : passes sem (fun d => d ∈ defs t) -> reduce_gamma n t = Some t' -> wf t' /\ refines ctl content sem addr imp t t'.
  Proof using All.
    intros Hp H. unfold reduce_gamma in H. apply bind_Some in H as (l & Hl & [= <-]). pose proof (reduce_wf l Hl) as Hw'. split; [done|]. destruct Hwf as (Hw & Hnd & _), Hw' as (Hw1 & Hnd1 & _).
    apply chase_refines; try done.
    - intros o w' Ho. apply elem_of_dsub in Ho as (w & Hin & ->); [|done]. exists w. split; [done|]. apply vrel_vsub. intros x. by apply all_chase.
    - rewrite rres_dregion. apply sub_list. intros x. by apply all_chase.
  Qed.
End Right.
Theorem gamma_invariant_reduction t n t' : wf t -> n ∈ nodes_of t -> nkind n = Gamma -> same_entry_var n -> reduce_gamma n t = Some t' ->
  wf t' /\ forall V (ctl : V -> option nat) content sem addr imp, passes sem (fun d => d ∈ defs t) -> refines ctl content sem addr imp t t'.
Proof.
  intros Hw Hn Hk Hs H. split.
  - apply (reduce_right t n Hw Hn Hk Hs (V:=unit) (fun _ => None) id (fun _ _ => None) (fun _ => tt) (fun _ => tt)); [|done]. intros ?????????. done.
  - intros. by eapply (reduce_right t n).
Qed.
(** nothing crashes then *)
Theorem gamma_invariant_reduction_total t n : wf t -> n ∈ nodes_of t -> nkind n = Gamma -> nsubs n <> [] -> same_entry_var n -> exists t', reduce_gamma n t = Some t'.
Proof.
  intros Hw Hn Hk Hne Hs. unfold reduce_gamma. assert (Hm : exists l, reduce_moves n = Some l); [|destruct Hm as [l ->]; eexists; done]. pose proof (proj2 wf_nodes_in t n (proj1 Hw) Hn) as Hwn.
  destruct n as [id k ins outs subs]. cbn [nkind nsubs] in *. subst k. apply wf_node_unfold in Hwn as [[_ Hf] _]. cbn [reduce_moves]. unfold same_entry_var in Hs. cbn [nouts nsubs] in Hs.
  assert (Hex : forall k, k < length outs -> reduce_exit_var ins subs k <> Crash).
  { intros k Hlt. destruct subs as [|r0 rs]; [done|]. cbn [reduce_exit_var]. destruct (branch_argument k r0) as [i|] eqn:E; [|done]. destruct (Hs k Hlt r0 rs i eq_refl E) as [Hi Hall].
    assert (existsb (fun r' => bool_decide (branch_argument k r' = None)) rs = false) as ->.
    { apply not_true_iff_false. intros (r & Hr%elem_of_list_In & Hb)%existsb_exists. apply bool_decide_eq_true in Hb. rewrite (Hall r Hr) in Hb. done. }
    destruct i as [|i]; [done|]. destruct (lookup_lt_is_Some_2 ins (S i)) as [z ->]; [|done]. unfold branch_argument in E. apply bind_Some in E as (x & _ & Hx). apply position_lookup, lookup_lt_Some in Hx. apply Forall_cons in Hf as [[Hl _] _]. lia. }
  assert (Hg : forall m : list (nat * nat), Forall (fun d => d.1 < length outs) m -> exists l, foldr (fun '(k, o) l => l ← l; match reduce_exit_var ins subs k with Skip => Some l | Move z => Some ((o, z) :: l) | Crash => None end) (Some []) m = Some l).
  { induction m as [|[j o] m IH]; intros Hm; [eauto|]. apply Forall_cons in Hm as [Hj Hm]. destruct (IH Hm) as [l Hl]. cbn [foldr]. rewrite Hl. cbn [mbind option_bind]. specialize (Hex j Hj). destruct (reduce_exit_var ins subs j); [eauto | eauto | done]. }
  apply Hg, Forall_forall. intros [j o] (i & y & Hq & Hi)%elem_of_lookup_imap. injection Hq as -> ->. by eapply lookup_lt_Some.
Qed.

(** Without the hypothesis: the first branch returns entry variable 5, the second entry variable 6; the users of the exit variable get 5. *)
Definition bad : region :=
  Region [2; 5; 6] [9] [Node 1 Gamma [2; 5; 6] [9] [Region [10; 11; 12] [11] []; Region [20; 21; 22] [22] []]].
Theorem gamma_invariant_reduction_refuted : exists t n t' (ctl : nat -> option nat) imp, wf t /\ n ∈ nodes_of t /\ nkind n = Gamma /\ reduce_gamma n t = Some t' /\
  exists o o' v v', rres t = [o] /\ rres t' = [o'] /\ ev ctl id (fun _ _ => None) id imp t emp o v /\ ev ctl id (fun _ _ => None) id imp t' emp o' v' /\ v <> v'.
Proof.
  exists bad, (Node 1 Gamma [2; 5; 6] [9] [Region [10; 11; 12] [11] []; Region [20; 21; 22] [22] []]), (Region [2; 5; 6] [5] [Node 1 Gamma [2; 5; 6] [9] [Region [10; 11; 12] [11] []; Region [20; 21; 22] [22] []]]), Some, (fun i => if decide (i = 2) then 1 else i).
  assert (Hi : forall t a (imp : nat -> nat), a ∈ rargs t -> ev Some id (fun _ _ => None) id imp t emp a (imp a)).
  { intros t a imp Ha. apply ev_fold. exists (VImport a). split; [|done]. unfold defs. apply elem_of_app. left. apply elem_of_list_In, in_map_iff. exists a. split; [done | by apply elem_of_list_In]. }
  split.
  { split; [|split; apply (bool_decide_unpack _); vm_compute; exact I]. cbn; repeat (split || apply Forall_cons_2 || apply Forall_nil_2); try exact I; try discriminate; apply (bool_decide_unpack _); vm_compute; exact I. }
  split; [left|]. split; [done|]. split; [vm_compute; reflexivity|]. exists 9, 5, 6, 5. do 2 (split; [done|]). split; [|split; [|done]].
  - apply ev_fold. eexists. split; [unfold defs; apply elem_of_app; right; apply rdefs_unfold; eexists; split; [left|]; apply ndefs_unfold; left; apply elem_of_index; exists 0; done|].
    exists 1, 1. eexists _, _, _, [5; 6]. split; [apply (Hi bad 2); left|]. split; [done|]. split; [done|]. split.
    + constructor; [apply (Hi bad 5); right; left|]. constructor; [apply (Hi bad 6); right; right; left | constructor].
    + apply ev_fold. exists (VGammaArg 6). split; [|done]. unfold defs. apply elem_of_app. right. apply rdefs_unfold. eexists. split; [left|]. apply ndefs_unfold. right. exists (Region [20; 21; 22] [22] []). split; [right; left|]. left. apply elem_of_index. exists 2. done.
  - apply (Hi (Region _ _ _) 5). right; left.
Qed.
(** A null pointer is dereferenced when another branch computes the result, or when the first branch returns the content of the match *)
Theorem gamma_invariant_reduction_crashes : exists t n, wf t /\ n ∈ nodes_of t /\ nkind n = Gamma /\ reduce_gamma n t = None.
Proof.
  exists (Region [2; 5] [9] [Node 1 Gamma [2; 5] [9] [Region [10; 11] [11] []; Region [20; 21] [23] [Node 24 (Simple 1) [] [23] []]]]). eexists. split.
  { split; [|split; apply (bool_decide_unpack _); vm_compute; exact I]. cbn; repeat (split || apply Forall_cons_2 || apply Forall_nil_2); try exact I; try discriminate; apply (bool_decide_unpack _); vm_compute; exact I. }
  split; [left|]. split; [done|]. vm_compute. reflexivity.
Qed.
Example gamma_invariant_reduction_ex : exists t n t', wf t /\ n ∈ nodes_of t /\ nkind n = Gamma /\ same_entry_var n /\ reduce_gamma n t = Some t' /\ rres t = [9] /\ rres t' = [5].
Proof.
  exists (Region [2; 5] [9] [Node 1 Gamma [2; 5] [9] [Region [10; 11] [11] []; Region [20; 21] [21] []]]). eexists _, _. split.
  { split; [|split; apply (bool_decide_unpack _); vm_compute; exact I]. cbn; repeat (split || apply Forall_cons_2 || apply Forall_nil_2); try exact I; try discriminate; apply (bool_decide_unpack _); vm_compute; exact I. }
  split; [left|]. split; [done|]. split.
  - intros k Hk r0 rs i Hs Hb. cbn in Hk, Hs. assert (k = 0) as -> by lia. injection Hs as <- <-. cbn in Hb. injection Hb as <-. split; [done|]. intros r ->%elem_of_list_singleton. done.
  - split; [vm_compute; reflexivity | done].
Qed.
