(** Splitting allocas keeps where pointers point. *)
From stdpp Require Import base list list_numbers.
From Coq Require Import Lia.
From Verif.AllocaSplit Require Import Model Spec.

Lemma mem_true x l : mem x l = true <-> x ∈ l.
Proof. unfold mem. rewrite bool_decide_eq_true. reflexivity. Qed.

Lemma visit_elem p vs v : v ∈ visit p vs <-> v < length (defs p) /\
  (v ∈ vs \/ exists us u, defs p !! v = Some (Copies us) /\ u ∈ us /\ u ∈ vs).
Proof.
  unfold visit. rewrite elem_of_list_filter, elem_of_seq. unfold copied. rewrite orb_true_iff, mem_true.
  split.
  - intros [[H|H] [_ Hl]]; (split; [lia|]); [left; exact H|right].
    destruct (defs p !! v) as [[| |us| |]|]; try discriminate H. apply existsb_exists in H as (u & Hu & Hm).
    exists us, u. split; [reflexivity|]. split; [apply elem_of_list_In; exact Hu|apply mem_true; exact Hm].
  - intros [Hl [H|(us & u & Hd & Hu & Hm)]]; (split; [|lia]); [left; exact H|right].
    rewrite Hd. apply existsb_exists. exists u. split; [apply elem_of_list_In; exact Hu|apply mem_true; exact Hm].
Qed.

Lemma reach_sound p a n v : v ∈ Nat.iter n (visit p) [a] -> copy_of p a v.
Proof.
  revert v. induction n as [|n IH]; intros v H.
  - apply elem_of_list_singleton in H as ->. constructor.
  - change (v ∈ visit p (Nat.iter n (visit p) [a])) in H. apply visit_elem in H as [_ [H|(us & u & Hd & Hu & Hm)]]; [exact (IH _ H)|].
    exact (copy_step p a u v us (IH _ Hm) Hd Hu).
Qed.

(** The iteration is long enough: sets that grow within the pointers are at
    their end after as many steps as there are pointers. *)
Lemma iter_mono p a n v : a < length (defs p) -> v ∈ Nat.iter n (visit p) [a] -> v < length (defs p) /\ v ∈ Nat.iter (S n) (visit p) [a].
Proof.
  intros Ha H. assert (v < length (defs p)) as Hv.
  { destruct n as [|n]; [apply elem_of_list_singleton in H as ->; exact Ha|]. apply (visit_elem p _ v) in H. tauto. }
  split; [exact Hv|]. apply (visit_elem p _ v). auto.
Qed.
Lemma iter_nodup p a n : NoDup (Nat.iter n (visit p) [a]).
Proof. destruct n as [|n]; [apply NoDup_singleton|]. apply NoDup_filter, NoDup_seq. Qed.
Lemma iter_grows p a n : a < length (defs p) ->
  n < length (Nat.iter n (visit p) [a]) \/ (forall v, v ∈ Nat.iter (S n) (visit p) [a] -> v ∈ Nat.iter n (visit p) [a]).
Proof.
  intros Ha. induction n as [|n IH]; [left; cbn; lia|]. set (A := Nat.iter n (visit p) [a]) in *.
  change (Nat.iter (S n) (visit p) [a]) with (visit p A) in *. change (Nat.iter (S (S n)) (visit p) [a]) with (visit p (visit p A)).
  assert ((forall v, v ∈ visit p A -> v ∈ A) -> forall v, v ∈ visit p (visit p A) -> v ∈ visit p A) as Hstable.
  { intros Hs v Hv. apply visit_elem in Hv as [Hl [Hv|(us & u & Hd & Hu & Hm)]]; [exact Hv|]. apply visit_elem. split; [exact Hl|]. right. exists us, u. split; [exact Hd|]. split; [exact Hu|apply Hs; exact Hm]. }
  destruct IH as [IH|IH]; [|right; exact (Hstable IH)].
  destruct (decide (Forall (fun v => v ∈ A) (visit p A))) as [Hall|Hnot].
  - right. apply Hstable. intros v Hv. rewrite Forall_forall in Hall. exact (Hall v Hv).
  - left. apply not_Forall_Exists in Hnot; [|intros v; apply decide; apply _]. apply Exists_exists in Hnot as (w & Hw & Hn).
    assert (NoDup (w :: A)) as Hnd. { apply NoDup_cons. split; [exact Hn|]. unfold A. apply iter_nodup. }
    assert (w :: A ⊆+ visit p A) as Hsub.
    { apply NoDup_submseteq; [exact Hnd|]. intros v Hv. apply elem_of_cons in Hv. destruct Hv as [->|Hv]; [exact Hw|].
      unfold A in *. exact (proj2 (iter_mono p a n v Ha Hv)). }
    apply submseteq_length in Hsub. cbn in Hsub. lia.
Qed.
Lemma iter_start p a k : a < length (defs p) -> a ∈ Nat.iter k (visit p) [a].
Proof. intros Ha. induction k as [|k IH]; [apply elem_of_list_singleton; reflexivity|]. exact (proj2 (iter_mono p a k a Ha IH)). Qed.
Lemma reach_complete p a v : a < length (defs p) -> copy_of p a v -> v ∈ reach p a.
Proof.
  intros Ha H. unfold reach. set (n := length (defs p)) in *.
  assert (forall v, v ∈ Nat.iter (S n) (visit p) [a] -> v ∈ Nat.iter n (visit p) [a]) as Hs.
  { destruct (iter_grows p a n Ha) as [H'|H']; [|exact H'].
    exfalso. assert (Nat.iter n (visit p) [a] ⊆+ seq 0 n) as Hsub.
    { apply NoDup_submseteq; [apply iter_nodup|]. intros w Hw. apply elem_of_seq. pose proof (iter_mono p a n w Ha Hw) as [? _]. unfold n. lia. }
    apply submseteq_length in Hsub. rewrite seq_length in Hsub. lia. }
  induction H as [|u w us H IH Hd Hu].
  - apply iter_start. exact Ha.
  - apply Hs. change (w ∈ visit p (Nat.iter n (visit p) [a])). apply visit_elem. split; [apply lookup_lt_Some in Hd; exact Hd|]. right. eauto.
Qed.
Lemma reach_spec p a v : a < length (defs p) -> v ∈ reach p a <-> copy_of p a v.
Proof. intros Ha. split; [apply reach_sound|apply reach_complete; exact Ha]. Qed.

(** The address of a split alloca is used for addresses of its elements only,
    and these for loads and stores only. *)
Theorem splitable_private p a : splitable p a = true ->
  (forall v, copy_of p a v -> v ∉ accesses p /\ v ∉ escapes p) /\
  (forall v g idx w, copy_of p a v -> defs p !! g = Some (Gep v idx) -> copy_of p g w ->
     w ∉ escapes p /\ forall g' idx', defs p !! g' <> Some (Gep w idx')).
Proof.
  unfold splitable. intros H. destruct (defs p !! a) as [[| | | |]|] eqn:Ea; try discriminate H.
  pose proof (lookup_lt_Some _ _ _ Ea) as Ha. apply andb_true_iff in H as [H1 H2]. rewrite forallb_forall in H1, H2. split.
  - intros v Hv. apply (reach_spec p a v Ha) in Hv. apply elem_of_list_In in Hv. specialize (H1 v Hv).
    apply andb_true_iff in H1 as [N1 N2]. apply negb_true_iff in N1, N2. unfold mem in *. apply bool_decide_eq_false in N1, N2. auto.
  - intros v g idx w Hv Hg Hw. pose proof (lookup_lt_Some _ _ _ Hg) as Hl. apply (reach_spec p a v Ha) in Hv.
    assert (g ∈ consumers p (reach p a)) as Hc.
    { apply elem_of_list_filter. split; [|apply elem_of_seq; lia]. unfold is_consumer. rewrite Hg. apply mem_true. exact Hv. }
    apply elem_of_list_In in Hc. specialize (H2 g Hc). apply andb_true_iff in H2 as [N1 N2].
    rewrite forallb_forall in N1. apply (reach_spec p g w Hl) in Hw. split.
    + apply elem_of_list_In in Hw. specialize (N1 w Hw). apply negb_true_iff in N1. unfold mem in N1. apply bool_decide_eq_false in N1. exact N1.
    + intros g' idx' Hg'. apply bool_decide_eq_true in N2. assert (g' ∈ consumers p (reach p g)) as Hc'; [|rewrite N2 in Hc'; inversion Hc'].
      apply elem_of_list_filter. split; [|pose proof (lookup_lt_Some _ _ _ Hg'); apply elem_of_seq; lia]. unfold is_consumer. rewrite Hg'. apply mem_true. exact Hw.
Qed.

Lemma copy_points p a v : defs p !! a = Some Alloca -> copy_of p a v -> points p v (a, []).
Proof. intros Ha H. induction H as [|u w us H IH Hd Hu]; [constructor; exact Ha|]. exact (points_copy p w us u _ Hd Hu IH). Qed.
Lemma copy_points_only p a v x : exclusive p -> splitable p a = true -> points p v x -> copy_of p a v -> x = (a, []).
Proof.
  intros He Hs H. pose proof Hs as Ha. unfold splitable in Ha. destruct (defs p !! a) as [[| | | |]|] eqn:Ea; try discriminate Ha. clear Ha.
  induction H as [v Hv|v u idx b path Hv Hp IH|v us u x Hv Hu Hp IH|v b idx Hv]; intros Hc.
  - inversion Hc as [|u w us Hc' Hd Hu]; subst; [reflexivity|congruence].
  - inversion Hc as [|u' w us Hc' Hd Hu]; subst; congruence.
  - apply IH. exact (He a v us u Hs Hc Hv Hu).
  - inversion Hc as [|u' w us Hc' Hd Hu]; subst; congruence.
Qed.

(** What the definitions become. *)
Lemma split_fold p (xs : list nat) : forall (ds : list def) (v : nat), fold_left (fun (ds : list def) a => split_def p a <$> ds) xs ds !! v =
  (fun d => fold_left (fun d a => split_def p a d) xs d) <$> ds !! v.
Proof.
  induction xs as [|a xs IH]; intros ds v; cbn; [destruct (ds !! v); reflexivity|].
  rewrite IH, list_lookup_fmap. destruct (ds !! v); reflexivity.
Qed.
Lemma split_fold_def p xs : forall d, fold_left (fun d a => split_def p a d) xs d = d \/
  exists a u idx, a ∈ xs /\ d = Gep u idx /\ u ∈ reach p a /\ fold_left (fun d a => split_def p a d) xs d = Element a idx.
Proof.
  assert (forall xs b idx, fold_left (fun d a => split_def p a d) xs (Element b idx) = Element b idx) as Hel.
  { intros ys b idx. induction ys as [|y ys IHy]; [reflexivity|exact IHy]. }
  induction xs as [|a xs IH]; intros d; [left; reflexivity|]. cbn [fold_left].
  destruct d as [|u idx|us|b idx|].
  - left. destruct (IH Alloca) as [H|(? & ? & ? & ? & Hd & ?)]; [exact H|discriminate Hd].
  - cbn [split_def]. destruct (mem u (reach p a)) eqn:E.
    + right. exists a, u, idx. split; [apply elem_of_list_here|]. split; [reflexivity|]. split; [apply mem_true; exact E|apply Hel].
    + destruct (IH (Gep u idx)) as [H|(b & u' & idx' & Hb & Hd & Hu & Hf)]; [left; exact H|].
      right. exists b, u', idx'. split; [apply elem_of_list_further; exact Hb|]. auto.
  - left. destruct (IH (Copies us)) as [H|(? & ? & ? & ? & Hd & ?)]; [exact H|discriminate Hd].
  - left. apply Hel.
  - left. destruct (IH Other) as [H|(? & ? & ? & ? & Hd & ?)]; [exact H|discriminate Hd].
Qed.
Lemma split_all_def p v : defs (split_all p) !! v = defs p !! v \/
  exists a u idx, splitable p a = true /\ defs p !! v = Some (Gep u idx) /\ copy_of p a u /\ defs (split_all p) !! v = Some (Element a idx).
Proof.
  unfold split_all. cbn [defs]. rewrite split_fold. destruct (defs p !! v) as [d|]; [|left; reflexivity].
  match goal with |- context [fold_left _ ?xs] => destruct (split_fold_def p xs d) as [H|(a & u & idx & Ha & -> & Hu & H)] end.
  - left. cbn. f_equal. exact H.
  - right. apply elem_of_list_filter in Ha as [Ha _]. exists a, u, idx. split; [exact Ha|]. split; [reflexivity|].
    split; [exact (reach_sound _ _ _ _ Hu)|]. cbn. f_equal. exact H.
Qed.

Lemma split_fold_gep p (xs : list nat) u idx : (exists a, a ∈ xs /\ u ∈ reach p a) -> exists a, fold_left (fun d a => split_def p a d) xs (Gep u idx) = Element a idx.
Proof.
  intros (a & Ha & Hu). induction xs as [|x xs IH]; [inversion Ha|]. cbn [fold_left split_def]. destruct (mem u (reach p x)) eqn:E.
  - exists x. clear. induction xs as [|y ys IHy]; [reflexivity|exact IHy].
  - apply IH. apply elem_of_cons in Ha as [->|Ha]; [|exact Ha]. apply mem_true in Hu. congruence.
Qed.
(** The split allocas are dead: what is computed from their addresses is no
    longer used. *)
Theorem alloca_split_dead p a v : splitable p a = true -> derived (split_all p) a v -> v ∉ accesses (split_all p) /\ v ∉ escapes (split_all p).
Proof.
  intros Hs H. apply (proj1 (splitable_private p a Hs)).
  assert (a < length (defs p)) as Ha.
  { unfold splitable in Hs. destruct (defs p !! a) as [d|] eqn:E; [|discriminate Hs]. exact (lookup_lt_Some _ _ _ E). }
  induction H as [|u w idx H IH Hw|u w us H IH Hw Hu]; [constructor| |].
  - exfalso. destruct (split_all_def p w) as [E|(? & ? & ? & ? & ? & ? & E)]; [|congruence]. rewrite E in Hw.
    destruct (split_fold_gep p (filter (fun a => splitable p a = true) (seq 0 (length (defs p)))) u idx) as (b & Hb).
    { exists a. split; [|exact (reach_complete p a u Ha IH)]. apply elem_of_list_filter. split; [exact Hs|]. apply elem_of_seq. lia. }
    rewrite Hw in E. unfold split_all in E. cbn [defs] in E. rewrite split_fold, Hw in E. cbn in E. rewrite Hb in E. discriminate E.
  - destruct (split_all_def p w) as [E|(? & ? & ? & ? & ? & ? & E)]; [|congruence]. rewrite E in Hw. exact (copy_step p a u w us IH Hw Hu).
Qed.

(** A pointer never points to an element that it did not point to before. *)
Theorem alloca_split_adds_nothing p v x : unsplit p -> points (split_all p) v x -> points p v x.
Proof.
  intros Hu.
  assert (forall a, splitable p a = true -> defs p !! a = Some Alloca) as Hal.
  { intros a Ha. unfold splitable in Ha. destruct (defs p !! a) as [[| | | |]|]; try discriminate Ha. reflexivity. }
  intros H.
  induction H as [v Hv|v u idx b path Hv Hp IH|v us u x Hv Hin Hp IH|v b idx Hv];
      (destruct (split_all_def p v) as [E|(a & u' & idx' & Ha & Hd & Hc & E)]; [rewrite E in Hv|]).
  - constructor. exact Hv.
  - congruence.
  - exact (points_gep p v u idx b path Hv IH).
  - congruence.
  - exact (points_copy p v us u x Hv Hin IH).
  - congruence.
  - destruct (Hu _ _ _ Hv).
  - rewrite E in Hv. injection Hv as <- <-. exact (points_gep p v u' idx' a [] Hd (copy_points p a u' (Hal a Ha) Hc)).
Qed.

(** Every pointer points to the same elements as before. *)
Theorem alloca_split_preserves_partial p : unsplit p -> exclusive p -> forall v x, points (split_all p) v x <-> points p v x.
Proof.
  intros Hu He v x.
  split; [apply alloca_split_adds_nothing; exact Hu|]; intros H.
  - induction H as [v Hv|v u idx b path Hv Hp IH|v us u x Hv Hin Hp IH|v b idx Hv];
      (destruct (split_all_def p v) as [E|(a & u' & idx' & Ha & Hd & Hc & E)]; [rewrite Hv in E|]).
    + constructor. exact E.
    + congruence.
    + exact (points_gep _ v u idx b path E IH).
    + rewrite Hv in Hd. injection Hd as <- <-. pose proof (copy_points_only p a u (b, path) He Ha Hp Hc) as Hx. injection Hx as -> ->.
      exact (points_element _ v a idx E).
    + exact (points_copy _ v us u x E Hin IH).
    + congruence.
    + exact (points_element _ v b idx E).
    + congruence.
Qed.

(** The trace follows the address of an alloca through a gamma node and does not
    look at what else comes out of it:
      struct s a, b; struct s * p = c ? &a : &b; p->y = 1;
    both allocas are split, and the store always goes to a. *)
Definition p_two : prog := Prog [Alloca; Alloca; Copies [0; 1]; Gep 2 [0; 1]] [3] [].
Theorem alloca_split_merge_refuted :
  unsplit p_two /\ 3 ∈ accesses p_two /\ splitable p_two 0 = true /\ splitable p_two 1 = true /\
  points p_two 3 (1, [0; 1]) /\ forall x, points (split_all p_two) 3 x -> x = (0, [0; 1]).
Proof.
  split; [|split; [|split; [|split; [|split]]]].
  - intros v a idx H. destruct v as [|[|[|[|v]]]]; cbn in H; discriminate H.
  - apply elem_of_list_here.
  - reflexivity.
  - reflexivity.
  - apply (points_gep p_two 3 2 [0; 1] 1 []); [reflexivity|]. apply (points_copy p_two 2 [0; 1] 1); [reflexivity| |constructor; reflexivity].
    apply elem_of_list_further, elem_of_list_here.
  - intros x H. assert (defs (split_all p_two) !! 3 = Some (Element 0 [0; 1])) as E by reflexivity.
    inversion H as [v Hv|v u idx b path Hv Hp|v us u y Hv Hin Hp|v b idx Hv]; subst; rewrite E in Hv; try discriminate Hv.
    injection Hv as <- <-. reflexivity.
Qed.

(** The test of the type looks at the first element of aggregate type only. *)
Theorem splitable_type_refuted :
  (exists t, splitable_type t = true /\ ~ structs_only t) /\
  splitable_type (Struct [Struct [Scalar]; Array]) = true /\ splitable_type (Struct [Array; Struct [Scalar]]) = false.
Proof.
  split; [|split; reflexivity]. exists (Struct [Struct [Scalar]; Array]). split; [reflexivity|]. cbn. intros (_ & H & _). exact (H eq_refl).
Qed.

Lemma leaves_struct ts : leaves (Struct ts) = (fix elements (i : nat) (ts : list type) : list (list nat) :=
      match ts with
      | [] => []
      | t :: ts => match t with Struct _ => cons i <$> leaves t | _ => [[i]] end ++ elements (S i) ts
      end) 0 ts.
Proof. reflexivity. Qed.
Definition is_struct (t : type) : Prop := exists ts, t = Struct ts.
Lemma leaves_spec : forall t path, path ∈ leaves t <-> path <> [] /\ exists u, part t path u /\ ~ is_struct u.
Proof.
  fix IHt 1. intros t path. destruct t as [| |ts].
  - split; [intros H; inversion H|]. intros (Hn & u & H & _). inversion H; subst; congruence.
  - split; [intros H; inversion H|]. intros (Hn & u & H & _). inversion H; subst; congruence.
  - rewrite leaves_struct.
    assert (forall i, path ∈ (fix elements (i : nat) (ts : list type) : list (list nat) :=
      match ts with
      | [] => []
      | t :: ts => match t with Struct _ => cons i <$> leaves t | _ => [[i]] end ++ elements (S i) ts
      end) i ts <-> exists k rest t u, path = (i + k) :: rest /\ ts !! k = Some t /\ part t rest u /\ ~ is_struct u) as H.
    { induction ts as [|t ts IH]; intros i.
      - split; [intros H; inversion H|]. intros (k & rest & t & u & _ & H & _). destruct k; discriminate H.
      - rewrite elem_of_app, IH.
        assert (path ∈ match t with Struct _ => cons i <$> leaves t | _ => [[i]] end <->
          exists rest u, path = i :: rest /\ part t rest u /\ ~ is_struct u) as Hh.
        { pose proof (IHt t) as IHt0. clear IHt. destruct t as [| |ts'].
          - rewrite elem_of_list_singleton. split.
            + intros ->. exists [], Scalar. split; [reflexivity|]. split; [constructor|]. intros [? H]. discriminate H.
            + intros (rest & u & -> & Hp & _). inversion Hp; subst. reflexivity.
          - rewrite elem_of_list_singleton. split.
            + intros ->. exists [], Array. split; [reflexivity|]. split; [constructor|]. intros [? H]. discriminate H.
            + intros (rest & u & -> & Hp & _). inversion Hp; subst. reflexivity.
          - rewrite elem_of_list_fmap. split.
            + intros (rest & -> & Hr). apply IHt0 in Hr as (_ & u & Hp & Hn). exists rest, u. auto.
            + intros (rest & u & -> & Hp & Hn). exists rest. split; [reflexivity|]. apply IHt0. split; [|eauto].
              intros ->. inversion Hp; subst. apply Hn. exists ts'. reflexivity. }
        rewrite Hh. split.
        + intros [(rest & u & -> & Hp & Hn)|(k & rest & t' & u & -> & Hk & Hp & Hn)].
          * exists 0, rest, t, u. split; [f_equal; lia|]. auto.
          * exists (S k), rest, t', u. split; [f_equal; lia|]. auto.
        + intros (k & rest & t' & u & -> & Hk & Hp & Hn). destruct k as [|k].
          * injection Hk as <-. left. exists rest, u. split; [f_equal; lia|]. auto.
          * right. exists k, rest, t', u. split; [f_equal; lia|]. auto. }
    rewrite H. split.
    + intros (k & rest & t & u & -> & Hk & Hp & Hn). split; [discriminate|]. exists u. split; [|exact Hn]. exact (part_element ts k t rest u Hk Hp).
    + intros (Hne & u & Hp & Hn). inversion Hp as [|ts' i t rest u' Hk Hp']; subst; [congruence|]. exists i, rest, t, u. auto.
Qed.
(** There is one alloca for each part of a struct that is not a struct itself. *)
Theorem element_allocas_complete ts idx : idx ∈ element_allocas (Struct ts) <->
  exists path u, idx = 0 :: path /\ part (Struct ts) path u /\ ~ exists us, u = Struct us.
Proof.
  unfold element_allocas. rewrite elem_of_list_fmap. split.
  - intros (path & -> & H). apply leaves_spec in H as (_ & u & Hp & Hn). exists path, u. auto.
  - intros (path & u & -> & Hp & Hn). exists path. split; [reflexivity|]. apply leaves_spec. split; [|eauto].
    intros ->. inversion Hp; subst. apply Hn. eauto.
Qed.
(** No two of them are for the same part. *)
Lemma leaves_nodup : forall t, NoDup (leaves t).
Proof.
  fix IHt 1. intros [| |ts]; [constructor|constructor|]. rewrite leaves_struct.
  assert (forall i, NoDup ((fix elements (i : nat) (ts : list type) : list (list nat) :=
      match ts with
      | [] => []
      | t :: ts => match t with Struct _ => cons i <$> leaves t | _ => [[i]] end ++ elements (S i) ts
      end) i ts) /\ forall path, path ∈ (fix elements (i : nat) (ts : list type) : list (list nat) :=
      match ts with
      | [] => []
      | t :: ts => match t with Struct _ => cons i <$> leaves t | _ => [[i]] end ++ elements (S i) ts
      end) i ts -> exists k rest, path = (i + k) :: rest) as H; [|exact (proj1 (H 0))].
  induction ts as [|t ts IH]; intros i.
  - split; [constructor|]. intros path H. inversion H.
  - assert (forall path, path ∈ match t with Struct _ => cons i <$> leaves t | _ => [[i]] end -> exists rest, path = i :: rest) as Hh.
    { intros path H. destruct t as [| |ts']; [apply elem_of_list_singleton in H as ->; eauto|apply elem_of_list_singleton in H as ->; eauto|].
      apply elem_of_list_fmap in H as (rest & -> & _). eauto. }
    destruct (IH (S i)) as [N1 N2]. split.
    + apply NoDup_app. split; [|split].
      * pose proof (IHt t) as IHt0. clear IHt. destruct t as [| |ts']; [apply NoDup_singleton|apply NoDup_singleton|]. apply NoDup_fmap_2; [intros ? ? [=]; assumption|exact IHt0].
      * intros path H1 H2. destruct (Hh _ H1) as (r1 & ->). destruct (N2 _ H2) as (k & r2 & E). injection E as E _. lia.
      * exact N1.
    + intros path H. apply elem_of_app in H as [H|H].
      * destruct (Hh _ H) as (rest & ->). exists 0, rest. f_equal. lia.
      * destruct (N2 _ H) as (k & rest & ->). exists (S k), rest. f_equal. lia.
Qed.
Theorem element_allocas_distinct t : NoDup (element_allocas t).
Proof. unfold element_allocas. apply NoDup_fmap_2; [intros ? ? [=]; assumption|apply leaves_nodup]. Qed.
