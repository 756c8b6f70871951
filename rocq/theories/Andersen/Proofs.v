(** The union-find part: roots, unification, path halving. *)
From stdpp Require Import base list list_numbers fin_sets gmap.
From Coq Require Import Lia.
From Verif.Andersen Require Import Model Spec.

Lemma upd_eq {A} (f : nat -> A) i x : upd f i x i = x.
Proof. unfold upd. rewrite decide_True; auto. Qed.
Lemma upd_ne {A} (f : nat -> A) i x j : j <> i -> upd f i x j = f j.
Proof. intros. unfold upd. rewrite decide_False; auto. Qed.

(** union-find forests, as in [wf_par] *)
Definition forest (n : nat) (p rk : nat -> nat) : Prop :=
  forall i, i < n -> p i < n /\ (p i = i \/ rk i < rk (p i)).

Lemma list_max_in x l : x ∈ l -> x <= list_max l.
Proof.
  induction l as [|a l IH]; intros H; [inversion H|]. change (list_max (a :: l)) with (Nat.max a (list_max l)).
  inversion H; subst; [lia|]. specialize (IH H2). lia.
Qed.

Section Forest.
  Context (n : nat) (p rk : nat -> nat) (F : forest n p rk).

  Lemma forest_iter_lt k i : i < n -> Nat.iter k p i < n.
  Proof using F. intros. induction k; cbn; auto. apply F, IHk. Qed.
  Lemma forest_iter_rank k i : i < n -> p (Nat.iter k p i) = Nat.iter k p i \/ k <= rk (Nat.iter k p i).
  Proof using F.
    intros Hi. induction k as [|k IHk]; [right; cbn; lia|].
    change (Nat.iter (S k) p i) with (p (Nat.iter k p i)). pose proof (forest_iter_lt k i Hi) as L.
    destruct IHk as [Eq|IH]; [rewrite Eq; auto|]. destruct (F _ L) as [Lp [Eq|R]]; [rewrite Eq; auto|].
    destruct (F _ Lp) as [_ [Eq|R']]; right; lia.
  Qed.
  Definition fuel_of := S (list_max (map rk (seq 0 n))).
  Definition rootf i := Nat.iter fuel_of p i.
  Lemma rootf_fix i : i < n -> p (rootf i) = rootf i.
  Proof using F.
    intros Hi. destruct (forest_iter_rank fuel_of i Hi) as [|H]; auto.
    exfalso. pose proof (forest_iter_lt fuel_of i Hi) as L.
    assert (rk (Nat.iter fuel_of p i) <= list_max (map rk (seq 0 n))).
    { apply list_max_in. apply elem_of_list_fmap. exists (Nat.iter fuel_of p i). split; auto. apply elem_of_seq. lia. }
    unfold fuel_of in H at 1. lia.
  Qed.
  Lemma rootf_lt i : i < n -> rootf i < n.
  Proof using F. apply forest_iter_lt. Qed.
  Lemma iter_fix k i : p i = i -> Nat.iter k p i = i.
  Proof. intros E. induction k as [|k IHk]; auto. change (p (Nat.iter k p i) = i). rewrite IHk. auto. Qed.
  Lemma iter_add k l i : Nat.iter (k + l) p i = Nat.iter k p (Nat.iter l p i).
  Proof. induction k as [|k IHk]; auto. change (p (Nat.iter (k + l) p i) = p (Nat.iter k p (Nat.iter l p i))). rewrite IHk. auto. Qed.
  Lemma iter_succ_r k i : Nat.iter (S k) p i = Nat.iter k p (p i).
  Proof. replace (S k) with (k + 1) by lia. rewrite iter_add. auto. Qed.
  Lemma rootf_unique k i : i < n -> p (Nat.iter k p i) = Nat.iter k p i -> rootf i = Nat.iter k p i.
  Proof using F.
    intros Hi E. pose proof (rootf_fix i Hi) as E'. unfold rootf in *.
    transitivity (Nat.iter (k + fuel_of) p i).
    - rewrite iter_add. symmetry. apply iter_fix; auto.
    - rewrite Nat.add_comm, iter_add. apply iter_fix; auto.
  Qed.
  Lemma rootf_self i : p i = i -> rootf i = i.
  Proof. intros E. unfold rootf. apply iter_fix; auto. Qed.
  Lemma rootf_par i : i < n -> rootf (p i) = rootf i.
  Proof using F.
    intros Hi. symmetry. pose proof (rootf_fix (p i) (proj1 (F i Hi))) as E. unfold rootf in *.
    rewrite <- iter_succ_r in E. rewrite <- iter_succ_r. apply rootf_unique; auto.
  Qed.
  Lemma rootf_iff i : i < n -> rootf i = i <-> p i = i.
  Proof using F. intros Hi. split; [|apply rootf_self]. intros E. rewrite <- E at 1. rewrite rootf_fix; auto. Qed.
  Lemma rootf_rootf i : i < n -> rootf (rootf i) = rootf i.
  Proof using F. intros Hi. apply rootf_self, rootf_fix; auto. Qed.

  Lemma forest_ind (P : nat -> Prop) :
    (forall i, i < n -> p i = i -> P i) ->
    (forall i, i < n -> p i <> i -> P (p i) -> P i) ->
    forall i, i < n -> P i.
  Proof using F.
    intros H0 H1 i Hi. set (M := list_max (map rk (seq 0 n))).
    assert (B : forall j, j < n -> rk j <= M).
    { intros j Hj. apply list_max_in, elem_of_list_fmap. exists j. split; auto. apply elem_of_seq. lia. }
    remember (M - rk i) as d eqn:E. revert i Hi E.
    induction d as [d IH] using lt_wf_ind. intros i Hi ->.
    destruct (decide (p i = i)) as [|N]; [apply H0; auto|]. apply H1; auto.
    destruct (F i Hi) as [L [?|R]]; [tauto|]. specialize (B _ L). eapply IH; [|auto|reflexivity]. lia.
  Qed.
End Forest.

(** path halving changes no root *)
Lemma halving_step n p rk i : forest n p rk -> i < n -> p i <> i ->
  forest n (upd p i (p (p i))) rk /\ forall j, j < n -> rootf n (upd p i (p (p i))) rk j = rootf n p rk j.
Proof.
  intros F Hi Hne. set (p' := upd p i (p (p i))).
  assert (F' : forest n p' rk).
  { intros j Hj. unfold p', upd. destruct (decide (j = i)) as [->|].
    - destruct (F i Hi) as [L [?|R]]; [tauto|]. destruct (F _ L) as [L' [E|R']]; rewrite ?E; split; auto; right; lia.
    - apply F; auto. }
  split; auto. apply (forest_ind n p rk F).
  - intros j Hj E. assert (j <> i) by congruence. rewrite (rootf_self n p); auto. apply rootf_self. unfold p'. rewrite upd_ne; auto.
  - intros j Hj Hn IH. rewrite <- (rootf_par n p rk F j Hj). rewrite <- IH.
    destruct (decide (j = i)) as [->|].
    + (* p' i = p (p i) *)
      rewrite <- (rootf_par n p' rk F' i Hi).
      assert (A1 : p' i = p (p i)) by (unfold p'; apply upd_eq).
      assert (A2 : p' (p i) = p (p i)) by (unfold p'; rewrite upd_ne; auto).
      rewrite A1. rewrite <- (rootf_par n p' rk F' (p i)) by (apply F; auto). rewrite A2. auto.
    + assert (A : p' j = p j) by (unfold p'; rewrite upd_ne; auto). rewrite <- (rootf_par n p' rk F' j Hj), A. auto.
Qed.

Lemma find_halving_ok n rk : forall fuel p i r p', forest n p rk -> i < n ->
  find_halving fuel p i = Some (r, p') ->
  r = rootf n p rk i /\ forest n p' rk /\ forall j, j < n -> rootf n p' rk j = rootf n p rk j.
Proof.
  induction fuel as [|fuel IH]; intros p i r p' F Hi E; cbn in E; [discriminate|].
  destruct (decide (p i = i)) as [Ei|Ni].
  - injection E as <- <-. rewrite (rootf_self n p rk i); auto.
  - destruct (halving_step n p rk i F Hi Ni) as [F' R].
    assert (L : p (p i) < n) by (apply F, F; auto).
    destruct (IH _ _ _ _ F' L E) as [-> [F'' R']].
    split; [|split; auto].
    + rewrite R by auto. rewrite rootf_par, rootf_par; auto. apply F; auto.
    + intros j Hj. rewrite R' by auto. auto.
Qed.
Lemma find_halving_total n rk p i : forest n p rk -> i < n -> exists r p', find_halving (S (fuel_of n rk)) p i = Some (r, p').
Proof.
  intros F Hi. set (M := list_max (map rk (seq 0 n))).
  assert (G : forall fuel p i, forest n p rk -> i < n -> M < fuel + rk i -> exists r p', find_halving (S fuel) p i = Some (r, p')).
  { induction fuel as [|fuel IH]; intros q j Fq Hj L.
    - exfalso. assert (rk j <= M); [|lia]. apply list_max_in, elem_of_list_fmap. exists j. split; auto. apply elem_of_seq. lia.
    - cbn. destruct (decide (q j = j)) as [|N]; [eauto|].
      destruct (halving_step n q rk j Fq Hj N) as [F' R].
      assert (L2 : q (q j) < n) by (apply Fq, Fq; auto).
      apply IH; auto. destruct (Fq j Hj) as [L1 [?|R1]]; [tauto|]. destruct (Fq _ L1) as [_ [E|R2]]; rewrite ?E; lia. }
  apply G; auto. unfold fuel_of. lia.
Qed.

Lemma root_rootf s i : root s i = rootf (npo s) (par s) (rank s) i.
Proof. reflexivity. Qed.
Lemma wf_forest s : wf s -> forest (npo s) (par s) (rank s).
Proof. intros W i Hi. apply (wf_par s W); auto. Qed.

Lemma root_lt s i : wf s -> i < npo s -> root s i < npo s.
Proof. intros W Hi. apply (rootf_lt _ _ _ (wf_forest s W) i Hi). Qed.
Lemma root_root s i : wf s -> i < npo s -> root s (root s i) = root s i.
Proof. intros W Hi. apply (rootf_rootf _ _ _ (wf_forest s W) i Hi). Qed.

(** linking two roots *)
Definition link_rank (rk : nat -> nat) (r1 r2 new : nat) : nat -> nat :=
  if decide (rk r1 = rk r2) then upd rk new (S (rk new)) else rk.
Lemma link_forest n p rk r1 r2 new old : forest n p rk -> r1 < n -> r2 < n -> r1 <> r2 ->
  p r1 = r1 -> p r2 = r2 -> (new, old) = (if decide (rk r1 < rk r2) then (r2, r1) else (r1, r2)) ->
  forest n (upd p old new) (link_rank rk r1 r2 new) /\
  forall j, j < n -> rootf n (upd p old new) (link_rank rk r1 r2 new) j
                     = if decide (rootf n p rk j = old) then new else rootf n p rk j.
Proof.
  intros F H1 H2 Hne E1 E2 Eno. set (p' := upd p old new). set (rk' := link_rank rk r1 r2 new).
  assert (Hold : p old = old /\ p new = new /\ old < n /\ new < n /\ old <> new /\ rk old <= rk new /\ (rk r1 = rk r2 <-> rk old = rk new)).
  { destruct (decide (rk r1 < rk r2)); injection Eno as -> ->; repeat split; auto; lia. }
  destruct Hold as (Eo & En & Ho & Hn & Hon & Hrk & Hiff).
  assert (F' : forest n p' rk').
  { intros j Hj. unfold p', upd. destruct (decide (j = old)) as [->|].
    - split; auto. right. unfold rk', link_rank. destruct (decide (rk r1 = rk r2)) as [e|e].
      + rewrite upd_eq, upd_ne by auto. apply Hiff in e. lia.
      + assert (rk old <> rk new) by tauto. lia.
    - destruct (F j Hj) as [L [E|R]]; split; auto. right. unfold rk', link_rank. destruct (decide (rk r1 = rk r2)) as [e|e]; auto.
      unfold upd. destruct (decide (j = new)); [subst; rewrite En in R; lia|]. destruct (decide (p j = new)); [|lia]. rewrite e0 in R; lia. }
  split; auto. apply (forest_ind n p rk F).
  - intros j Hj E. rewrite (rootf_self n p rk j) by auto. destruct (decide (j = old)) as [->|].
    + assert (A : p' old = new) by (unfold p'; apply upd_eq).
      rewrite <- (rootf_par n p' rk' F' old Hj), A. apply rootf_self. unfold p'. rewrite upd_ne; auto.
    + apply rootf_self. unfold p'. rewrite upd_ne; auto.
  - intros j Hj N IH. rewrite (rootf_par n p rk F j Hj) in IH. rewrite <- IH.
    assert (A : p' j = p j) by (unfold p'; rewrite upd_ne; congruence).
    rewrite <- (rootf_par n p' rk' F' j Hj), A. auto.
Qed.

(** what unification does to the roots, and to everything stored at the roots *)
Record unified (s s' : pos) (new old : nat) : Prop := {
  un_npo : npo s' = npo s; un_kind : kindof s' = kindof s; un_can : canpoint s' = canpoint s;
  un_esc : fesc s' = fesc s;
  un_new : new < npo s /\ root s new = new; un_old : old < npo s /\ root s old = old; un_ne : new <> old;
  un_root : forall j, j < npo s -> root s' j = if decide (root s j = old) then new else root s j;
  un_pe : forall j, j ∈ fpe s' <-> j ∈ fpe s \/ (j = new /\ old ∈ fpe s);
  un_ext : forall j, j ∈ fext s' <-> j ∈ fext s \/ (j = new /\ old ∈ fext s);
  un_sas : forall j, j ∈ fsas s' <-> j ∈ fsas s \/ (j = new /\ old ∈ fsas s);
  un_las : forall j, j ∈ flas s' <-> j ∈ flas s \/ (j = new /\ old ∈ flas s);
  un_pts : forall j, pts s' j = if decide (j = old) then ∅ else if decide (j = new) then pts s new ∪ pts s old else pts s j }.

Lemma elem_move (new old : nat) (f : gset nat) j :
  j ∈ (if decide (old ∈ f) then {[new]} ∪ f else f) <-> j ∈ f \/ (j = new /\ old ∈ f).
Proof. destruct (decide (old ∈ f)); set_solver. Qed.

Lemma unify_spec s a b s' r : wf s -> a < npo s -> b < npo s -> unify a b s = (s', r) ->
  (root s a = root s b /\ s' = s /\ r = root s a) \/
  (root s a <> root s b /\ wf s' /\ exists old, unified s s' r old /\
    (r = root s a /\ old = root s b \/ r = root s b /\ old = root s a)).
Proof.
  intros W Ha Hb E. unfold unify in E.
  destruct (decide (root s a = root s b)) as [e|ne]; [injection E as <- <-; auto|]. right. split; auto.
  set (r1 := root s a) in *. set (r2 := root s b) in *.
  destruct (if decide (rank s r1 < rank s r2) then (r2, r1) else (r1, r2)) as [new old] eqn:Eno.
  injection E as <- <-.
  pose proof (wf_forest s W) as F.
  assert (H1 : r1 < npo s) by (apply root_lt; auto). assert (H2 : r2 < npo s) by (apply root_lt; auto).
  assert (Hcase : new = r1 /\ old = r2 \/ new = r2 /\ old = r1).
  { destruct (decide (rank s r1 < rank s r2)); injection Eno as <- <-; auto. }
  assert (R1 : root s r1 = r1) by (apply root_root; auto). assert (R2 : root s r2 = r2) by (apply root_root; auto).
  assert (P1 : par s r1 = r1) by (apply (rootf_iff _ _ _ F); auto).
  assert (P2 : par s r2 = r2) by (apply (rootf_iff _ _ _ F); auto).
  destruct (link_forest (npo s) (par s) (rank s) r1 r2 new old F H1 H2 ne P1 P2 (eq_sym Eno)) as [F' R].
  set (s' := mkpos _ _ _ _ _ _ _ _ _ _ _ _).
  assert (U : unified s s' new old).
  { split; try reflexivity; try (destruct Hcase as [[-> ->]|[-> ->]]; auto; fail).
    all: intros; apply elem_move. }
  split; [|exists old; split; auto].
  destruct U. split.
  - intros i Hi. apply F'; auto.
  - rewrite un_npo0, un_esc0. intros i Hi.
    rewrite un_pe0, un_ext0, un_sas0, un_las0 in Hi.
    pose proof (wf_flags s W i). assert (i = new -> i < npo s) by (intros ->; apply un_new0). tauto.
  - rewrite un_npo0. intros i y. rewrite un_pts0. pose proof (wf_pts_dom s W).
    destruct (decide (i = old)) as [->|]; [set_solver|]. destruct (decide (i = new)) as [->|]; [intros _; apply un_new0|eauto].
  - rewrite un_npo0, un_kind0. intros i y. rewrite un_pts0. pose proof (wf_pts s W).
    destruct (decide (i = old)) as [->|]; [set_solver|]. destruct (decide (i = new)) as [->|]; [|eauto].
    rewrite elem_of_union. intros [|]; eauto.
  - rewrite un_esc0, un_kind0. apply (wf_esc s W).
  - rewrite un_esc0. intros y Hy. assert (L : y < npo s) by (apply (wf_flags s W); auto). rewrite un_root0, un_pe0 by auto.
    pose proof (wf_esc_pe s W y Hy) as P. destruct (decide (root s y = old)) as [<-|]; auto.
  - rewrite un_esc0. intros y Hy. assert (L : y < npo s) by (apply (wf_flags s W); auto). rewrite un_root0, un_ext0 by auto.
    pose proof (wf_esc_ext s W y Hy) as P. destruct (decide (root s y = old)) as [<-|]; auto.
Qed.
