(** Postorder; indices; the tree. *)
From stdpp Require Import base list fin_sets gmap fin_maps.
From Coq Require Import Lia.
From Verif.Cfg Require Import Model.
From Verif.Domtree Require Import Model Spec Proofs1.

Section Postorder.
  Context (g : cfg).
  Hypothesis Hsinks : forall n m, m ∈ sinks g n -> m ∈ nodes g.
  Definition left_over (v : gset nat) : nat := size (list_to_set (nodes g) ∖ v : gset nat).
  Definition all (v : gset nat) (l : list nat) : gset nat := v ∪ list_to_set l.
  Lemma in_all v l x : x ∈ all v l <-> x ∈ v \/ x ∈ l.
  Proof. unfold all. by rewrite elem_of_union, elem_of_list_to_set. Qed.
  Lemma left_over_mono v w : v ⊆ w -> left_over w <= left_over v.
  Proof. intros H. unfold left_over. apply subseteq_size. intros x Hx. apply elem_of_difference in Hx as [H1 H2]. apply elem_of_difference. split; [done|]. intros H3. by apply H2, H. Qed.
  Lemma left_over_lt v n : n ∈ nodes g -> n ∉ v -> left_over ({[n]} ∪ v) < left_over v.
  Proof.
    intros Hn Hv. unfold left_over. apply subset_size. split.
    - intros x Hx. apply elem_of_difference in Hx as [H1 H2]. apply elem_of_difference. split; [done|]. intros H3. apply H2, elem_of_union. by right.
    - intros H. assert (Hx : n ∈ (list_to_set (nodes g) ∖ ({[n]} ∪ v) : gset nat)) by (apply H, elem_of_difference; split; [by apply elem_of_list_to_set | done]). apply elem_of_difference in Hx as [_ Hx]. apply Hx, elem_of_union. left. by apply elem_of_singleton.
  Qed.
  (** l is what is visited from the nodes of ms, after v *)
  Record visited (v : gset nat) (ms l : list nat) : Prop := {
    vi_nodup : NoDup l;
    vi_new x : x ∈ l -> x ∉ v /\ x ∈ nodes g;
    vi_parent l1 m l2 : l = l1 ++ m :: l2 -> (exists p, p ∈ l2 /\ m ∈ sinks g p) \/ m ∈ ms;
    vi_sinks x y : x ∈ l -> y ∈ sinks g x -> y ∈ v \/ y ∈ l;
    vi_all m : m ∈ ms -> m ∈ v \/ m ∈ l;
  }.
  Definition tree_of (f : nat -> gset nat * list nat -> option (gset nat * list nat)) (fuel : nat) : Prop :=
    forall n v o, n ∈ nodes g -> n ∉ v -> left_over v <= fuel -> exists l, f n (v, o) = Some (all v (l ++ [n]), o ++ l ++ [n]) /\ visited ({[n]} ∪ v) (sinks g n) l.
  Lemma split_mid (l k l1 l2 : list nat) m : l ++ k = l1 ++ m :: l2 -> (exists r, l = l1 ++ m :: r /\ l2 = r ++ k) \/ exists r, k = r ++ m :: l2 /\ l1 = l ++ r.
  Proof.
    revert l1. induction l as [|x l IH]; intros l1 H; [right; by exists l1|]. destruct l1 as [|y l1]; cbn in H.
    - injection H as -> <-. left. by exists l.
    - injection H as -> H. destruct (IH l1 H) as [(r & -> & ->)|(r & -> & ->)]; [left; by exists r | right; by exists r].
  Qed.
  Lemma each_ok f fuel : tree_of f fuel -> forall ms v o, (forall m, m ∈ ms -> m ∈ nodes g) -> left_over v <= fuel -> exists l, each f ms (v, o) = Some (all v l, o ++ l) /\ visited v ms l.
  Proof.
    intros Hf. induction ms as [|m ms IH]; intros v o Hms Hfu; cbn [each].
    - exists []. split; [unfold all; cbn; rewrite app_nil_r; f_equal; f_equal; set_solver|]. constructor; [constructor | intros x Hx; by apply elem_of_nil in Hx | intros l1 m l2 H; by destruct l1 | intros x y Hx; by apply elem_of_nil in Hx | intros m Hm; by apply elem_of_nil in Hm].
    - cbn [fst]. assert (Hms' : forall x, x ∈ ms -> x ∈ nodes g) by (intros x Hx; apply Hms; by right). destruct (decide (m ∈ v)) as [Hm|Hm]; cbn [mbind option_bind].
      + destruct (IH v o Hms' Hfu) as (l & E & [V1 V2 V3 V4 V5]). exists l. split; [exact E|]. constructor; [done | done | | done |].
        * intros l1 x l2 El. destruct (V3 l1 x l2 El) as [?|?]; [by left | right; by right].
        * intros x Hx. apply elem_of_cons in Hx as [->|Hx]; [by left | by apply V5].
      + destruct (Hf m v o (Hms m (elem_of_list_here _ _)) Hm Hfu) as (l & E & [V1 V2 V3 V4 V5]). rewrite E. cbn [mbind option_bind].
        assert (Hsub : v ⊆ all v (l ++ [m])) by (unfold all; set_solver). pose proof (left_over_mono _ _ Hsub). destruct (IH (all v (l ++ [m])) (o ++ l ++ [m]) Hms') as (k & E' & [W1 W2 W3 W4 W5]); [lia|].
        exists ((l ++ [m]) ++ k). split. { refine (eq_trans E' _). f_equal. f_equal; [unfold all; set_solver | by rewrite <- !app_assoc]. }
        assert (Hmem : forall x, x ∈ l ++ [m] <-> x ∈ l \/ x = m) by (intros x; rewrite elem_of_app, elem_of_list_singleton; done).
        constructor.
        * apply NoDup_app. split; [apply NoDup_app; split; [done|]; split; [|apply NoDup_singleton]; intros x Hx Hx'; apply elem_of_list_singleton in Hx' as ->; apply V2 in Hx as [Hx _]; apply Hx, elem_of_union; left; by apply elem_of_singleton|]. split; [|done].
          intros x Hx Hk. apply W2 in Hk as [Hk _]. apply Hk, in_all. by right.
        * intros x Hx. apply elem_of_app in Hx as [Hx|Hx]; [apply Hmem in Hx as [Hx| ->]|].
          -- destruct (V2 x Hx) as [H1 H2]. split; [|done]. intros H3. apply H1, elem_of_union. by right.
          -- split; [done|]. apply Hms. left.
          -- destruct (W2 x Hx) as [H1 H2]. split; [|done]. intros H3. apply H1, in_all. by left.
        * intros l1 x l2 El. apply split_mid in El as [(r & El & ->)|(r & El & _)].
          -- apply split_mid in El as [(r' & El & ->)|(r' & El & _)].
             ++ left. destruct (V3 l1 x r' El) as [(p & Hp & Hs)|Hs]; [exists p; split; [rewrite !elem_of_app; tauto | done]|]. exists m. split; [|done]. rewrite !elem_of_app. left. right. left.
             ++ right. destruct r' as [|y r']; cbn in El; [injection El as <- _; left|]. by destruct r'.
          -- destruct (W3 r x l2 El) as [?|?]; [by left | right; by right].
        * intros x y Hx Hy. apply elem_of_app in Hx as [Hx|Hx]; [apply Hmem in Hx as [Hx| ->]|].
          -- destruct (V4 x y Hx Hy) as [H1|H1]; [apply elem_of_union in H1 as [H1%elem_of_singleton|H1]; [right; rewrite H1, !elem_of_app, elem_of_list_singleton; tauto | by left]|]. right. rewrite !elem_of_app. tauto.
          -- destruct (V5 y Hy) as [H1|H1]; [apply elem_of_union in H1 as [H1%elem_of_singleton|H1]; [right; rewrite H1, !elem_of_app, elem_of_list_singleton; tauto | by left]|]. right. rewrite !elem_of_app. tauto.
          -- destruct (W4 x y Hx Hy) as [H1|H1]; [|right; rewrite elem_of_app; tauto]. apply in_all in H1 as [H1|H1]; [by left|]. right. rewrite elem_of_app. by left.
        * intros x Hx. apply elem_of_cons in Hx as [->|Hx]; [right; rewrite !elem_of_app, elem_of_list_singleton; tauto|]. destruct (W5 x Hx) as [H1|H1]; [|right; rewrite elem_of_app; tauto]. apply in_all in H1 as [H1|H1]; [by left|]. right. rewrite elem_of_app. by left.
  Qed.
  Lemma traverse_ok fuel : tree_of (traverse g (S fuel)) fuel.
  Proof.
    induction fuel as [|fuel IH]; intros n v o Hn Hv Hf.
    - pose proof (left_over_lt v n Hn Hv). lia.
    - cbn [traverse]. pose proof (left_over_lt v n Hn Hv). destruct (each_ok (traverse g (S fuel)) fuel IH (sinks g n) ({[n]} ∪ v) o) as (l & E & V); [by apply Hsinks | lia|]. cbn [snd fst]. cbn [traverse] in E. rewrite E. cbn [mbind option_bind fst snd].
      exists l. split; [|done]. f_equal. f_equal; [unfold all; set_solver | by rewrite <- app_assoc].
  Qed.
  Lemma size_le (k : list nat) : size (list_to_set k : gset nat) <= length k.
  Proof.
    induction k as [|x k IH]; [done|]. cbn [list_to_set length]. rewrite size_union_alt, size_singleton. assert (H : size (list_to_set k ∖ {[x]} : gset nat) <= size (list_to_set k : gset nat)); [|lia].
    apply subseteq_size. intros y Hy. by apply elem_of_difference in Hy as [Hy _].
  Qed.
  Lemma postorder_ok : exists l, postorder g = Some (l ++ [entry]) /\ visited {[entry]} (sinks g entry) l.
  Proof.
    unfold postorder. destruct (traverse_ok (length (nodes g)) entry ∅ []) as (l & E & V); [left | by apply not_elem_of_empty | |].
    - unfold left_over. etrans; [|exact (size_le (nodes g))]. apply subseteq_size. intros x Hx. by apply elem_of_difference in Hx as [Hx _].
    - rewrite E. cbn [fmap option_fmap option_map snd app]. exists l. split; [done|]. by rewrite (right_id_L ∅ (∪)) in V.
  Qed.
End Postorder.
