(** A gamma node is done after its loop; what other nodes keep. *)
From stdpp Require Import base list gmap.
From Coq Require Import ZArith Lia.
From Verif.LocalRegion Require Import Model Spec Facts.
From Verif.Unswitch Require Import Model Spec Proofs1 Proofs3 Proofs4 Proofs5 Proofs6.
From Verif.Sinking Require Import Model Spec Proofs1.
Open Scope nat_scope.

Definition weight (n : node) : nat := S (foldr max 0 (map extent (bodies n))).
Lemma extent_eq A l res : extent (Region A l res) = sum_list_with weight l.
Proof.
  cbn [extent]. induction l as [|[k ins outs] l IH]; [done|]. cbn [sum_list_with]. rewrite <-IH. clear IH. f_equal. unfold weight. cbn [bodies nkind]. f_equal. destruct k as [o|subs|b]; [done| |cbn; lia].
  induction subs as [|r subs IH]; [done|]. cbn [map foldr]. by rewrite IH.
Qed.
Lemma extent_nodes r : extent r = sum_list_with weight (rnodes r).
Proof. destruct r. apply extent_eq. Qed.
Lemma sum_perm {A} (f : A -> nat) l l' : l ≡ₚ l' -> sum_list_with f l = sum_list_with f l'.
Proof. induction 1 as [|x l l' H IH|x y l|l1 l2 l3 H1 IH1 H2 IH2]; cbn; lia. Qed.
Lemma max_le l k : (forall x, x ∈ l -> x <= k) -> foldr max 0 l <= k.
Proof. induction l as [|x l IH]; intros H; cbn; [lia|]. pose proof (H x ltac:(by left)). assert (foldr max 0 l <= k) by (apply IH; intros y Hy; apply H; by right). lia. Qed.
Lemma max_ge l x : x ∈ l -> x <= foldr max 0 l.
Proof. induction l as [|y l IH]; intros H; [by apply elem_of_nil in H|]. cbn. apply elem_of_cons in H as [->|H]; [lia|]. specialize (IH H). lia. Qed.
Lemma body_extent r n b : n ∈ rnodes r -> b ∈ bodies n -> extent b < extent r.
Proof.
  intros Hn Hb. rewrite (extent_nodes r). apply elem_of_Permutation in Hn as [l' P]. rewrite (sum_perm _ _ _ P). cbn [sum_list_with]. unfold weight at 1. assert (extent b <= foldr max 0 (map extent (bodies n))); [|lia]. apply max_ge. apply elem_of_list_fmap. by exists b.
Qed.
Lemma pull_into_extent es n r : extent (pull_into es n r) = weight n + extent r.
Proof.
  unfold pull_into. rewrite extent_eq, extent_nodes. cbn [sum_list_with]. f_equal. generalize (rnodes r). intros l. induction l as [|m l IH]; [done|]. cbn [map sum_list_with]. rewrite <-IH. done.
Qed.
Lemma pull_extent r n G rest r' : pullable r n G rest -> rnodes r' ≡ₚ pull_node n G :: rest -> extent r' <= extent r.
Proof.
  intros (subs & q & es & outs & -> & P1 & _) P2. rewrite !extent_nodes, (sum_perm _ _ _ P1), (sum_perm _ _ _ P2). cbn [sum_list_with]. assert (weight (pull_node n (Node (KGamma subs) (q :: es) outs)) <= weight (Node (KGamma subs) (q :: es) outs) + weight n); [|lia].
  unfold weight at 1 2. cbn [pull_node bodies nkind]. assert (foldr max 0 (map extent (map (pull_into es n) subs)) <= foldr max 0 (map extent subs) + weight n); [|lia]. apply max_le. intros x Hx. apply elem_of_list_fmap in Hx as (s & -> & Hs). apply elem_of_list_fmap in Hs as (t & -> & Ht).
  rewrite pull_into_extent. assert (extent t <= foldr max 0 (map extent subs)); [|lia]. apply max_ge. apply elem_of_list_fmap. by exists t.
Qed.
Lemma pull_ins r n G rest x : pullable r n G rest -> x ∉ nouts n -> x ∈ nins (pull_node n G) <-> x ∈ nins G \/ x ∈ nins n.
Proof.
  intros (subs & q & es & outs & -> & _) Hx. cbn [pull_node nins]. rewrite !elem_of_cons, elem_of_app, elem_of_list_filter. tauto.
Qed.
Lemma pull_uses r n G rest r' x : pullable r n G rest -> rnodes r' ≡ₚ pull_node n G :: rest -> rres r' = rres r -> x ∉ nouts n -> uses r x <-> uses r' x.
Proof.
  intros Hp P2 Er Hx. pose proof (pull_ins _ _ _ _ x Hp Hx) as Hi. destruct Hp as (subs & q & es & outs & _ & P1 & _). unfold uses. rewrite Er. setoid_rewrite P1. setoid_rewrite P2. split; (intros [(m & Hm & Hxm)|]; [left|by right]); rewrite ?elem_of_cons in Hm.
  - destruct Hm as [->|[->|Hm]]; [exists (pull_node n G) | exists (pull_node n G) | exists m]; rewrite ?elem_of_cons; (split; [tauto|]); [apply Hi; by left | apply Hi; by right | done].
  - destruct Hm as [->|Hm]; [|exists m; rewrite !elem_of_cons; split; [tauto | done]]. apply Hi in Hxm as [Hxm|Hxm]; [exists G | exists n]; rewrite !elem_of_cons; (split; [tauto | done]).
Qed.
Lemma settled_perm G l l' res : l ≡ₚ l' -> settled G l res -> settled G l' res.
Proof.
  intros P H subs q es outs E. destruct (H subs q es outs E) as [H1|H1]; [by left|]. right. intros n Hn (Hx & Hq & Ho). apply H1; [by rewrite P|]. split; [done|]. split; [done|]. intros x Hxn. destruct (Ho x Hxn) as [H2 H3]. split; [done|]. intros m Hm. apply H3. by rewrite <-P.
Qed.
(** a gamma node that is done stays so when a node is pulled into another one *)
Lemma settled_pull r n G rest G0 rest0 : NoDup (names r) -> pullable r n G rest -> rest ≡ₚ G0 :: rest0 -> settled G0 (G :: n :: rest0) (rres r) -> settled G0 (pull_node n G :: rest0) (rres r).
Proof.
  intros Hnd Hp P0 H. pose proof Hp as (subs0 & q0 & es0 & outs0 & EG & P1 & _).
  assert (Hdis : forall m x, m ∈ G :: rest -> x ∈ nouts m -> x ∉ nouts n).
  { intros m x Hm Hx Hc. unfold names in Hnd. apply NoDup_app in Hnd as (_ & _ & Hnd). rewrite (all_outs_perm _ _ P1) in Hnd. rewrite !all_outs_cons in Hnd. rewrite (assoc_L (++)), (comm (++) (nouts G)), <-(assoc_L (++)) in Hnd. apply NoDup_app in Hnd as (_ & Hd & _). apply (Hd x Hc). rewrite <-all_outs_cons. apply elem_all_outs. by exists m. }
  intros subs q es outs E. destruct (H subs q es outs E) as [H1|H1]; [by left|]. right. intros m Hm ((x0 & Hx0 & Hx0e) & Hq & Ho).
  (* the node m, as it was before *)
  assert (Hm0 : exists m0, m0 ∈ G :: rest0 /\ nouts m0 = nouts m). { apply elem_of_cons in Hm as [->|Hm]; [exists G; split; [by left | by rewrite EG] | exists m; split; [by right | done]]. }
  destruct Hm0 as (m0 & Hm0 & Eo). intros Hex. apply (H1 m0); [rewrite !elem_of_cons in *; tauto| |].
  - unfold only_for. rewrite Eo. split; [by exists x0|]. split; [done|]. intros x Hx. destruct (Ho x Hx) as [H2 H3]. split; [done|].
    assert (Hxn : x ∉ nouts n). { apply (Hdis m0); [|by rewrite Eo]. rewrite P0. rewrite !elem_of_cons in *. tauto. }
    pose proof (pull_ins _ _ _ _ x Hp Hxn) as Hi. pose proof (H3 (pull_node n G) ltac:(by left)) as H4. intros m' Hm'. rewrite !elem_of_cons in Hm'. destruct Hm' as [->|[->|Hm']]; [tauto | tauto|]. apply H3. by right.
  - destruct Hex as (k & s & Hk & Hn & Hu). exists k, s. split; [done|]. unfold needs in *. rewrite Eo. by split.
Qed.

Lemma has_users_ok r x : has_users r x = true <-> uses r x.
Proof.
  unfold has_users, uses. rewrite orb_true_iff, existsb_exists, bool_decide_eq_true. split; (intros [(m & Hm & Hx)|]; [left; exists m|by right]); (split; [by apply elem_of_list_In|]); by apply bool_decide_eq_true in Hx || by apply bool_decide_eq_true.
Qed.
Lemma needs_ok n es s : existsb (fun d => bool_decide (d.2 ∈ nouts n) && has_users s d.1) (zip (tail (rargs s)) es) = true <-> needs n es s.
Proof.
  rewrite existsb_exists. unfold needs. split.
  - intros ([a x] & Hin & Hb). apply elem_of_list_In, elem_of_list_lookup in Hin as [j Hj]. apply lookup_zip_with_Some in Hj as (a' & x' & E & Ha & Hx). injection E as <- <-. cbn [fst snd] in Hb. apply andb_true_iff in Hb as [Hb1 Hb2]. apply bool_decide_eq_true in Hb1. apply has_users_ok in Hb2. exists j, x, a. rewrite lookup_tail in Ha. done.
  - intros (j & x & a & Hx & Hn & Ha & Hu). exists (a, x). split.
    + apply elem_of_list_In, elem_of_list_lookup. exists j. apply lookup_zip_with_Some. exists a, x. by rewrite lookup_tail.
    + cbn [fst snd]. apply andb_true_iff. split; [by apply bool_decide_eq_true | by apply has_users_ok].
Qed.
Lemma filter_one {A} (P : A -> Prop) `{forall x, Decision (P x)} (l : list A) k x : l !! k = Some x -> P x -> (forall j y, l !! j = Some y -> P y -> j = k) -> length (filter P l) = 1.
Proof.
  revert k. induction l as [|a l IH]; intros k Hk Hx Hu; [done|]. rewrite filter_cons. destruct k as [|k]; cbn in Hk.
  - injection Hk as ->. rewrite decide_True by done. cbn [length]. f_equal. apply length_zero_iff_nil. destruct (filter P l) as [|y l'] eqn:E; [done|]. exfalso. assert (Hy : y ∈ filter P l) by (rewrite E; by left). apply elem_of_list_filter in Hy as [Hy Hin]. apply elem_of_list_lookup in Hin as [j Hj]. pose proof (Hu (S j) y Hj Hy). done.
  - rewrite decide_False; [|intros Ha; pose proof (Hu 0 a eq_refl Ha); done]. apply (IH k); [done | done|]. intros j y Hj Hy. pose proof (Hu (S j) y Hj Hy). lia.
Qed.
Lemma single_successor_iff r i g n : rnodes r !! i = Some n -> single_successor r i g = true <-> forall x, x ∈ nouts n -> x ∉ rres r /\ forall j m, rnodes r !! j = Some m -> x ∈ nins m -> j = g.
Proof.
  intros Hi. unfold single_successor. rewrite Hi, forallb_forall. split.
  - intros H x Hx. specialize (H x (proj1 (elem_of_list_In _ _) Hx)). apply andb_true_iff in H as [S1 S2]. split; [apply bool_decide_eq_true in S1; by apply result_uses_0 in S1|]. intros j m Hj Hxm. exact (uses_sound r g x m j Hj Hxm S2).
  - intros H x Hx%elem_of_list_In. destruct (H x Hx) as [H1 H2]. apply andb_true_iff. split.
    + apply bool_decide_eq_true. unfold result_uses. apply length_zero_iff_nil. destruct (filter _ (rres r)) as [|y l] eqn:E; [done|]. exfalso. assert (Hy : y ∈ filter (fun y => y = x) (rres r)) by (rewrite E; by left). apply elem_of_list_filter in Hy as [-> Hy]. done.
    + rewrite forallb_forall. intros [j t] Hu%elem_of_list_In. apply node_uses_ok in Hu as (m & Hm & Ht). apply bool_decide_eq_true. cbn. apply (H2 j m); [done|]. by eapply elem_of_list_lookup_2.
Qed.
Lemma two_perm {A} (l : list A) g i x y : l !! g = Some x -> l !! i = Some y -> g <> i -> exists rest, l ≡ₚ x :: y :: rest /\ forall z, delete i (<[g := z]> l) ≡ₚ z :: rest.
Proof.
  intros Hg Hi Hne. pose proof (delete_Permutation _ _ _ Hg) as P1. assert (Hy : y ∈ delete g l) by (by eapply delete_in). apply elem_of_Permutation in Hy as [rest P]. exists rest. split; [by rewrite P1, P|]. intros z.
  assert (Hi2 : <[g := z]> l !! i = Some y) by (by rewrite list_lookup_insert_ne by congruence). pose proof (delete_Permutation _ _ _ Hi2) as Q. pose proof (insert_perm _ _ _ z Hg) as Q2. rewrite P, perm_swap in Q2. rewrite Q in Q2. by apply Permutation_cons_inv in Q2.
Qed.
