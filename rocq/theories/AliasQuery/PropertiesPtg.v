(** Alias queries from a points-to graph and chained analyses: the theorems. *)
From stdpp Require Import base list fin_maps fin_sets gmap option.
From Coq Require Import ZArith Lia.
From Verif.AliasQuery Require Import Model Spec Properties ModelPtg.
Local Open Scope Z_scope.

(** a points-to graph describes an execution (C27, C28 are about the points-to sets it is made from): each object is represented by one node,
    such that an output only ever points to objects that are represented by a target of its node *)
Record describes (P : ptg) (W : world) (rep : obj -> nat) : Prop := {
  d_targets : forall i o b x n, happens W i o (b, x) -> register_node P o = Some n -> rep b ∈ targets P n \/ (targets_external P n = true /\ available P (rep b) = true);
  d_single : forall b b', rep b = rep b' -> (node_kind P (rep b) = KDelta \/ node_kind P (rep b) = KLambda \/ node_kind P (rep b) = KImport) -> b = b';
  d_size : forall b n, nsize P (rep b) = Some n -> osize W b = n }.
(** a query function is right about an execution *)
Definition right (W : world) (query : nat -> Z -> nat -> Z -> outcome response) : Prop := forall p1 s1 P1 p2 s2 P2, accesses W p1 s1 P1 -> accesses W p2 s2 P2 ->
  (query p1 s1 p2 s2 = Done NoAlias -> ~ share_byte P1 s1 P2 s2) /\ (query p1 s1 p2 s2 = Done MustAlias -> P1 = P2).
Definition in_bounds (W : world) : Prop := forall i o b x, happens W i o (b, x) -> 0 <= x <= osize W b.

Section Ptg.
  Context (P : ptg) (W : world) (rep : obj -> nat) (Hd : describes P W rep) (Hb : in_bounds W).
  Lemma single_loop_some l size : forall s t, single_loop P l size s = Some t -> (s = None \/ s = Some t) /\ forall x, x ∈ l -> too_small P x size = false -> x = t /\ s = None.
  Proof using.
    induction l as [|y l IH]; intros s t; cbn; [intros ->; split; [by right | intros x Hx; by apply elem_of_nil in Hx]|]. destruct (too_small P y size) eqn:E.
    - intros H. destruct (IH s t H) as [H1 H2]. split; [done|]. intros x Hx Hs. apply elem_of_cons in Hx as [->|Hx]; [congruence | by apply H2].
    - destruct s as [s|]; [done|]. intros H. destruct (IH _ t H) as [[H1|H1] H2]; [done|]. injection H1 as ->. split; [by left|]. intros x Hx Hs. apply elem_of_cons in Hx as [->|Hx]; [done|]. by destruct (H2 x Hx Hs).
  Qed.
  Lemma fits_node o s b x : accesses W o s (b, x) -> 0 <= x /\ too_small P (rep b) s = false.
  Proof using Hd Hb.
    intros ((i & _ & Hh) & Hs & Hx). cbn in Hx. destruct (Hb _ _ _ _ Hh) as [H0 _]. split; [done|]. unfold too_small. destruct (nsize P (rep b)) as [n|] eqn:E; [|done]. pose proof (d_size _ _ _ Hd b n E). apply bool_decide_eq_false. lia.
  Qed.
  Lemma reaches o s b x n : accesses W o s (b, x) -> register_node P o = Some n -> rep b ∈ targets P n \/ (targets_external P n = true /\ available P (rep b) = true).
  Proof using Hd. intros ((i & _ & Hh) & _ & _) Hn. by eapply (d_targets _ _ _ Hd). Qed.
  Lemma single_is o s b x n t : accesses W o s (b, x) -> register_node P o = Some n -> single_target P n s = Some t -> rep b = t.
  Proof using Hd Hb.
    intros Ha Hn. unfold single_target. destruct (targets_external P n) eqn:Ee; [done|]. intros Ht. destruct (single_loop_some _ _ _ _ Ht) as [_ H]. destruct (fits_node _ _ _ _ Ha) as [_ Hs].
    destruct (reaches _ _ _ _ _ Ha Hn) as [Hin|[Hx _]]; [by destruct (H _ Hin Hs) | congruence].
  Qed.
  Lemma common_target_no l other needed : common_target P l other needed = NoAlias -> forall t, t ∈ l -> too_small P t needed = false -> is_targeting P other t = false.
  Proof using.
    induction l as [|y l IH]; cbn; [intros _ t Ht; by apply elem_of_nil in Ht|]. destruct (too_small P y needed) eqn:E; [intros H t Ht Hs; apply elem_of_cons in Ht as [->|Ht]; [congruence | by apply IH]|].
    destruct (is_targeting P other y) eqn:E2; [done|]. intros H t Ht Hs. apply elem_of_cons in Ht as [->|Ht]; [done | by apply IH].
  Qed.
  Lemma common_target_must l other needed : common_target P l other needed <> MustAlias.
  Proof using. induction l as [|y l IH]; cbn; [done|]. destruct (too_small P y needed); [done|]. by destruct (is_targeting P other y). Qed.
  Lemma now_same o s1 p s2 q : accesses W o s1 p -> accesses W o s2 q -> p = q.
  Proof using. intros ((i & Hi & Hp) & _) ((j & Hj & Hq) & _). assert (i = j) by congruence. subst. unfold happens in *. congruence. Qed.
  Lemma max_small b s1 s2 : too_small P (rep b) s1 = false -> too_small P (rep b) s2 = false -> too_small P (rep b) (Z.max s1 s2) = false.
  Proof using. unfold too_small. destruct (nsize P (rep b)); [|done]. rewrite !bool_decide_eq_false. lia. Qed.

  (** C82: the answers from a points-to graph that describes the execution are right: with NoAlias no byte is shared, with MustAlias the pointers are the same *)
  Theorem ptg_query_right : right W (ptg_query P).
  Proof using Hd Hb.
    intros p1 s1 [b1 x1] p2 s2 [b2 x2] H1 H2. unfold ptg_query. destruct (decide (p1 = p2)) as [->|Hne]; [split; [done|]; intros _; by eapply now_same|].
    destruct (register_node P p1) as [n1|] eqn:N1; [|done]. destruct (register_node P p2) as [n2|] eqn:N2; [|done].
    destruct (fits_node _ _ _ _ H1) as [Hx1 Hs1]. destruct (fits_node _ _ _ _ H2) as [Hx2 Hs2]. pose proof (reaches _ _ _ _ _ H1 N1) as R1. pose proof (reaches _ _ _ _ _ H2 N2) as R2.
    destruct (targets_external P n1 && targets_external P n2) eqn:Ee; [done|].
    assert (Hno : forall only other needed, needed = Z.max s1 s2 -> (only = n1 /\ other = n2 \/ only = n2 /\ other = n1) -> targets_external P only = false -> common_target P (targets P only) other needed = NoAlias -> b1 <> b2).
    { intros only other needed -> Hoo Hext Hc <-. pose proof (max_small b1 s1 s2 Hs1 Hs2) as Hm.
      assert (Hcase : forall u v, targets_external P u = false -> (rep b1 ∈ targets P u \/ targets_external P u = true /\ available P (rep b1) = true) -> (rep b1 ∈ targets P v \/ targets_external P v = true /\ available P (rep b1) = true) -> common_target P (targets P u) v (Z.max s1 s2) = NoAlias -> False).
      { intros u v Hu [Hin|[Hbad _]] Hv Hcv; [|congruence]. pose proof (common_target_no _ _ _ Hcv _ Hin Hm) as Ht. unfold is_targeting in Ht. apply orb_false_iff in Ht as [Ht1 Ht2]. destruct Hv as [Hv|[Hv1 Hv2]]; [by apply bool_decide_eq_false in Ht2 | by rewrite Hv1, Hv2 in Ht1]. }
      destruct Hoo as [[-> ->]|[-> ->]]; [exact (Hcase n1 n2 Hext R1 R2 Hc) | exact (Hcase n2 n1 Hext R2 R1 Hc)]. }
    set (must := if decide (s1 = s2) then _ else _). assert (Hmust : must = Done true -> (b1, x1) = (b2, x2)).
    { subst must. destruct (decide (s1 = s2)) as [<-|]; [|done]. unfold same_single. destruct (single_target P n1 s1) as [t1|] eqn:T1; [|done]. destruct (single_target P n2 s1) as [t2|] eqn:T2; [|done]. destruct (decide (t1 = t2)) as [<-|]; [|done].
      pose proof (single_is _ _ _ _ _ _ H1 N1 T1) as E1. pose proof (single_is _ _ _ _ _ _ H2 N2 T2) as E2. unfold single_location. subst t1. destruct (node_kind P (rep b1)) eqn:K; cbn; try done; intros [= Hz]; apply bool_decide_eq_true in Hz;
        (assert (b1 = b2) as <- by (apply (d_single _ _ _ Hd); [done | rewrite K; tauto]));
        pose proof (d_size _ _ _ Hd _ _ Hz) as Hsz; destruct H1 as (_ & _ & HH1), H2 as (_ & _ & HH2); cbn in HH1, HH2; f_equal; lia. }
    destruct must as [[|]| |]; cbn [obind]; [split; [done | by intros _; apply Hmust] | | done | done].
    destruct (targets_external P n1) eqn:E1; split; intros Hq; injection Hq as Hq; try (by apply common_target_must in Hq).
    - cbn [andb] in Ee. intros [Hbb _]. cbn in Hbb. refine (Hno _ _ _ eq_refl _ Ee Hq Hbb). by right.
    - intros [Hbb _]. cbn in Hbb. refine (Hno _ _ _ eq_refl _ E1 Hq Hbb). by left.
  Qed.
End Ptg.
(** C82: a query always gets an answer, if the external node is never an explicit target (PointsToGraph.cpp:232 asserts that) *)
Theorem ptg_query_total P p1 s1 p2 s2 : (forall n t, t ∈ targets P n -> node_kind P t <> KExternal) -> exists r, ptg_query P p1 s1 p2 s2 = Done r.
Proof.
  intros Hx. assert (Hs : forall n s t, single_target P n s = Some t -> t ∈ targets P n).
  { intros n s t. unfold single_target. destruct (targets_external P n); [done|]. generalize (targets P n). assert (H : forall l acc, single_loop P l s acc = Some t -> t ∈ l \/ acc = Some t).
    { induction l as [|y l IH]; intros acc; cbn; [by right|]. destruct (too_small P y s); [intros E; destruct (IH _ E) as [|]; [left; by right | by right]|]. destruct acc; [done|]. intros E. destruct (IH _ E) as [|[= ->]]; left; [by right | by left]. }
    intros l E. by destruct (H _ _ E). }
  unfold ptg_query. destruct (decide (p1 = p2)); [by eexists|]. destruct (register_node P p1) as [n1|]; [|by eexists]. destruct (register_node P p2) as [n2|]; [|by eexists]. destruct (targets_external P n1 && targets_external P n2); [by eexists|].
  assert (H : exists must, (if decide (s1 = s2) then same_single P s1 (single_target P n1 s1) (single_target P n2 s2) else Done false) = Done must).
  { destruct (decide (s1 = s2)); [|by eexists]. unfold same_single. destruct (single_target P n1 s1) as [t1|] eqn:T1; [|by eexists]. destruct (single_target P n2 s2) as [t2|]; [|by eexists]. destruct (decide (t1 = t2)); [|by eexists].
    pose proof (Hx _ _ (Hs _ _ _ T1)). unfold single_location. destruct (node_kind P t1); cbn; try done; eexists; reflexivity. }
  destruct H as [must ->]. cbn. destruct must; [by exists MustAlias|]. destruct (targets_external P n1); eexists; reflexivity.
Qed.
(** C82: two analyses that are right are right when chained *)
Theorem chained_right W first second : right W first -> right W second -> right W (chained first second) /\ right W (chained_release first second).
Proof.
  intros F S. assert (H : forall p1 s1 p2 s2 r, chained first second p1 s1 p2 s2 = Done r \/ chained_release first second p1 s1 p2 s2 = Done r -> r <> MayAlias -> first p1 s1 p2 s2 = Done r \/ second p1 s1 p2 s2 = Done r).
  { intros p1 s1 p2 s2 r. unfold chained, chained_release. destruct (first p1 s1 p2 s2) as [a| |]; cbn [obind]; [|by intros [|]..]. destruct (decide (a = MayAlias)); [intros [|]; by right|].
    destruct (second p1 s1 p2 s2) as [b| |]; cbn [obind]; [destruct (compatible a b); intros [[= <-]|[= <-]] | intros [|[= <-]] | intros [|[= <-]]]; try done; by left. }
  split; intros p1 s1 P1 p2 s2 P2 H1 H2; (split; intros E).
  - destruct (H p1 s1 p2 s2 NoAlias (or_introl E)) as [E'|E']; [done | by apply (F _ _ _ _ _ _ H1 H2) | by apply (S _ _ _ _ _ _ H1 H2)].
  - destruct (H p1 s1 p2 s2 MustAlias (or_introl E)) as [E'|E']; [done | by apply (F _ _ _ _ _ _ H1 H2) | by apply (S _ _ _ _ _ _ H1 H2)].
  - destruct (H p1 s1 p2 s2 NoAlias (or_intror E)) as [E'|E']; [done | by apply (F _ _ _ _ _ _ H1 H2) | by apply (S _ _ _ _ _ _ H1 H2)].
  - destruct (H p1 s1 p2 s2 MustAlias (or_intror E)) as [E'|E']; [done | by apply (F _ _ _ _ _ _ H1 H2) | by apply (S _ _ _ _ _ _ H1 H2)].
Qed.
(** C82: their answers are compatible, so that the check in builds with assertions passes, if there is an execution that accesses at least a byte at both pointers *)
Theorem chained_compatible W first second p1 s1 P1 p2 s2 P2 a b : right W first -> right W second -> accesses W p1 s1 P1 -> accesses W p2 s2 P2 -> 0 < s1 -> 0 < s2 ->
  first p1 s1 p2 s2 = Done a -> second p1 s1 p2 s2 = Done b -> exists r, chained first second p1 s1 p2 s2 = Done r.
Proof.
  intros F S H1 H2 L1 L2 Ea Eb. unfold chained. rewrite Ea, Eb. cbn [obind]. destruct (decide (a = MayAlias)); [by eexists|].
  destruct (F _ _ _ _ _ _ H1 H2) as [F1 F2]. destruct (S _ _ _ _ _ _ H1 H2) as [S1 S2]. rewrite Ea in F1, F2. rewrite Eb in S1, S2.
  assert (Hsame : P1 = P2 -> share_byte P1 s1 P2 s2) by (intros <-; split; [done|]; exists P1.2; lia).
  destruct a, b; cbn; try (by eexists); exfalso; [by apply (F1 eq_refl), Hsame, S2 | by apply (S1 eq_refl), Hsame, F2].
Qed.
(** C82: without one the check can fail, in both orders: p is a pointer that points to nothing (undef, null), q = p + 0 *)
Theorem chained_dead_refuted G P max p q n m s t : wf G -> (forall o, norm G o = o) -> p <> q -> kind_of G p = Undef \/ kind_of G p = Other -> kind_of G q = Gep p (Some 0) ->
  register_node P p = Some n -> register_node P q = Some m -> targets P n = [] -> targets P m = [] -> targets_external P n = false -> targets_external P m = false ->
  local_query G max p s q t = Done MustAlias /\ ptg_query P p s q t = Done NoAlias /\ chained (local_query G max) (ptg_query P) p s q t = Failed /\ chained (ptg_query P) (local_query G max) p s q t = Failed.
Proof.
  intros Hwf Hn Hpq Kp Kq Np Nq Tn Tm En Em.
  assert (L : local_query G max p s q t = Done MustAlias).
  { unfold local_query. rewrite !Hn. rewrite decide_False by done. assert (T1 : trace_precise G p = Done (p, 0)) by (unfold trace_precise; cbn [trace_precise_fuel]; rewrite !Hn; by destruct Kp as [->| ->]).
    assert (T2 : trace_precise G q = Done (p, 0)) by (unfold trace_precise; cbn [trace_precise_fuel]; rewrite Hn, Kq; pose proof (wf_gep G Hwf _ _ _ Kq); destruct (rank G q); [lia|]; cbn [trace_precise_fuel]; rewrite !Hn; by destruct Kp as [->| ->]).
    rewrite T1, T2. cbn [obind]. rewrite decide_True by done. done. }
  assert (Q : ptg_query P p s q t = Done NoAlias).
  { unfold ptg_query. rewrite decide_False by done. rewrite Np, Nq, En, Em. cbn [andb]. unfold same_single, single_target. rewrite En, Em, Tn, Tm. cbn. by destruct (decide (s = t)). }
  split; [done|]. split; [done|]. unfold chained. rewrite L, Q. done.
Qed.
(** C82: the chain that store value forwarding and the state encoder build from both analyses *)
Theorem local_ptg_right G W P rep max : wf G -> execution G W -> origins_fixed G W \/ no_pointer_loop_variables G -> describes P W rep ->
  right W (chained (local_query G max) (ptg_query P)) /\ right W (chained (ptg_query P) (local_query G max)).
Proof.
  intros Hwf HW Hr Hd. assert (R1 : right W (local_query G max)) by (intros p1 s1 P1 p2 s2 P2 H1 H2; split; intros E; [by eapply local_no_alias_sound | by eapply local_must_alias_sound]).
  assert (R2 : right W (ptg_query P)) by (apply (ptg_query_right P W rep Hd); intros i o b x; apply (ex_bounds G W HW)). split; by apply chained_right.
Qed.
(** the execution of Properties.Ex: the alloca is node 1, everything else is external memory, node 0; nodes 2 and 3 are for the registers *)
Module ExPtg.
  Definition graph : ptg := Ptg (fun o => Some (if bool_decide (o ∈ [0; 2; 4]%nat) then 2 else 3)%nat) (fun n => match n with 0 => KExternal | 1 => KAlloca | _ => KRegister end%nat) (fun n => bool_decide (n = 0%nat \/ n = 3%nat)) (fun n => bool_decide (n = 0%nat))
    (fun n => if decide (n = 2%nat) then [1%nat] else []) (fun n => if decide (n = 1%nat) then Some 16 else None).
  Definition rep (b : obj) : nat := match b with Stack _ _ => 1%nat | _ => 0%nat end.
  Lemma good : describes graph Ex.W rep.
  Proof.
    split.
    - intros i o b x n. unfold happens. do 9 (destruct i as [|i]; [intros [= <- <- <-]; intros [= <-]; cbn; first [left; by left | right; done]|]). intros H. by apply lookup_lt_Some in H; cbn in H; lia.
    - intros b b' _. destruct b; cbn; intros [|[|]]; done.
    - intros b n. destruct b; cbn; done || (intros [= <-]; done).
  Qed.
  Example answers : ptg_query graph 4 8 3 8 = Done NoAlias /\ ptg_query graph 5 4 4 8 = Done NoAlias /\ ptg_query graph 2 8 0 8 = Done MayAlias /\ ptg_query graph 2 32 0 8 = Done NoAlias /\ chained (ptg_query graph) (local_query Ex.graph 1000) 2 8 0 8 = Done NoAlias.
  Proof. by vm_compute. Qed.
  Example applies : right Ex.W (chained (local_query Ex.graph 1000) (ptg_query graph)).
  Proof. apply (local_ptg_right _ _ _ rep); [exact Ex.graph_wf | exact Ex.run | left; exact Ex.fixed | exact good]. Qed.
End ExPtg.
Module ExDead.
  Definition kinds : list kind := [Undef; Gep 0 (Some 0)].
  Definition users : list (list use) := [[UGep 1]; [ULoad]].
  Definition graph : Model.graph := Graph (fun o => default Other (kinds !! o)) (fun o => default [] (users !! o)) id id [0; 1]%nat.
  Lemma graph_wf : wf graph.
  Proof.
    split; try done.
    - intros [|[|o]]; done.
    - intros [|[|o]] b c; try done. intros [= <- <-]. cbn. lia.
    - intros [|[|o]] x; try done. intros ->. split; [done|]. by left.
    - intros [|[|o]]; done.
    - intros [|[|o]] u l x Hu Ht Hx; cbn in Hu; Ex.elem Hu; subst u; cbn in Ht; try done; injection Ht as <-; Ex.elem Hx; subst x; cbn; Ex.member.
  Qed.
  Definition points : ptg := Ptg (fun _ => Some 1%nat) (fun n => if decide (n = 0%nat) then KExternal else KRegister) (fun n => bool_decide (n = 0%nat)) (fun n => bool_decide (n = 0%nat)) (fun _ => []) (fun _ => None).
  Example dead : chained (local_query graph 1000) (ptg_query points) 0 4 1 4 = Failed.
  Proof. refine (proj1 (proj2 (proj2 (chained_dead_refuted graph points 1000 0 1 1 1 4 4 graph_wf _ _ _ _ _ _ _ _ _ _)))); done || by left. Qed.
End ExDead.
