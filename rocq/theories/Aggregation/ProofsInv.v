(** The subgraph that is being aggregated, and what a reduction step does to it. *)
From stdpp Require Import tactics relations base list list_numbers fin_sets gmap fin_maps.
From Verif.Construct Require Import Model Spec.
From Verif.Aggregation Require Import Model Spec ProofsRun.

(** The loops whose repetition edge has been removed, as a map K from the last node of a loop to its first. A nested subgraph has the loops around it, the
    entry and the exit of the whole graph, and the node to which its exit leads *)
Inductive ctx := Top | Nested (K : gmap nat nat) (E X s : nat).
Definition K_of (cx : ctx) (e x : nat) : gmap nat nat := match cx with Top => ∅ | Nested K _ _ _ => <[x := e]> K end.
Definition X_of (cx : ctx) (x : nat) : nat := match cx with Top => x | Nested _ _ X _ => X end.
Definition E_of (cx : ctx) (e : nat) : nat := match cx with Top => e | Nested _ E _ _ => E end.
Definition put (v : nat) (o : list nat) : list nat := match o with [] => [v] | s :: l => s :: v :: l end.
(** the graph with the repetition edges *)
Definition look (G : graph) (K : gmap nat nat) (n : nat) : option (tree * list nat) :=
  (fun nd => (label nd, match K !! n with Some v => put v (outs nd) | None => outs nd end)) <$> G !! n.
Definition inside (G : graph) (R : gset nat) (p q : nat) : Prop := q ∈ outs_of G p /\ p ∈ R /\ q ∈ R.
Record inv (cx : ctx) (G : graph) (c e x : nat) (R : gset nat) : Prop := Inv {
  inv_lt : forall n nd, G !! n = Some nd -> n < c /\ forall m, m ∈ outs nd -> m < c;
  inv_dom : forall n, n ∈ R -> is_Some (G !! n);
  inv_e : e ∈ R;
  inv_x : x ∈ R;
  inv_in : forall p q, q ∈ outs_of G p -> p ∉ R -> q ∈ R -> q = e;
  inv_out : forall p q, q ∈ outs_of G p -> p ∈ R -> q ∉ R -> p = x;
  inv_top : forall p q, q ∈ outs_of G p -> p ∈ R -> q <> e;
  inv_ctx : match cx with
            | Top => outs_of G x = []
            | Nested K E X s => filter (fun m => m ∉ R) (outs_of G x) = [s] /\ (forall z, z ∈ R -> rtc (inside G R) z x) /\
                E ∉ R /\ X ∉ R /\ E < c /\ X < c /\ forall k v, K !! k = Some v -> k ∉ R /\ v ∉ R /\ k < c /\ v < c
            end;
  inv_good : forall n t o, look G (K_of cx e x) n = Some (t, o) -> tree_ok None t /\ (2 <= length o -> exists p, ends_with t = Some p)
}.
(** what stays the same outside the subgraph *)
Definition rdn (a c : nat) (nd : node) : node := Node (label nd) (redirect a c <$> outs nd).
Record frame (G : graph) (c e : nat) (R : gset nat) (G' : graph) (c' e' : nat) (R' : gset nat) : Prop := Frame {
  fr_c : c <= c';
  fr_e : e' = e \/ c <= e';
  fr_R : forall z, z ∈ R' -> z ∈ R \/ c <= z;
  fr_G : forall z, z ∉ R' -> G' !! z = if decide (z ∈ R) then None else rdn e e' <$> G !! z
}.
Lemma rdn_refl e (o : option node) : rdn e e <$> o = o.
Proof. destruct o as [[l o]|]; [|done]. cbn. unfold rdn. cbn. do 3 f_equal. induction o as [|m o IH]; [done|]. cbn. rewrite IH. f_equal. unfold redirect. by case_decide. Qed.
Lemma rdn_rdn e e' e'' c (o : option node) : (forall nd m, o = Some nd -> m ∈ outs nd -> m < c) -> e' = e \/ c <= e' -> rdn e' e'' <$> (rdn e e' <$> o) = rdn e e'' <$> o.
Proof.
  intros Hlt He. destruct o as [[l o]|]; [|done]. cbn. unfold rdn. cbn. f_equal. f_equal. rewrite <-list_fmap_compose. apply list_fmap_ext. intros i m Hm. cbn.
  specialize (Hlt _ m eq_refl (elem_of_list_lookup_2 _ _ _ Hm)). unfold redirect. repeat case_decide; subst; try done; try lia; destruct He; subst; try done; lia.
Qed.
Lemma frame_refl G c e R : (forall n, n ∈ R -> is_Some (G !! n)) -> frame G c e R G c e R.
Proof. intros H. split; [lia|by left|by left|]. intros z Hz. rewrite decide_False by done. by rewrite rdn_refl. Qed.
Lemma frame_trans G c e R G1 c1 e1 R1 G2 c2 e2 R2 : (forall n nd, G !! n = Some nd -> n < c /\ forall m, m ∈ outs nd -> m < c) ->
  frame G c e R G1 c1 e1 R1 -> frame G1 c1 e1 R1 G2 c2 e2 R2 -> frame G c e R G2 c2 e2 R2.
Proof.
  intros Hlt [A1 A2 A3 A4] [B1 B2 B3 B4]. split; [lia| | |].
  - destruct B2 as [->|B2]; [done|]. right. lia.
  - intros z [Hz|Hz]%B3; [by apply A3|]. right. lia.
  - intros z Hz. rewrite B4 by done. case_decide as H1.
    + case_decide as H2; [done|]. apply A3 in H1 as [H1|H1]; [done|]. destruct (G !! z) as [nd|] eqn:E; [|done]. apply Hlt in E. lia.
    + rewrite A4 by done. case_decide as H2; [done|]. apply (rdn_rdn _ _ _ c); [|done]. intros nd m Hnd Hm. by apply (Hlt _ _ Hnd).
Qed.
Lemma outs_of_some G n nd : G !! n = Some nd -> outs_of G n = outs nd.
Proof. unfold outs_of. by intros ->. Qed.
Lemma elem_outs G p q : q ∈ outs_of G p <-> exists nd, G !! p = Some nd /\ q ∈ outs nd.
Proof. unfold outs_of. destruct (G !! p) as [nd|]; [split; [eauto|by intros (? & [= <-] & ?)]|]. split; [by intros ?%elem_of_nil|by intros (? & [=] & ?)]. Qed.
Lemma elem_edges G p q : (p, q) ∈ edges G <-> q ∈ outs_of G p.
Proof.
  unfold edges. rewrite elem_of_list_bind, elem_outs. split.
  - intros ([n nd] & H & Hin%elem_of_map_to_list). cbn in H. apply elem_of_list_fmap in H as (m & [= -> ->] & Hm). eauto.
  - intros (nd & H & Hq). exists (p, nd). rewrite elem_of_map_to_list. split; [|done]. cbn. apply elem_of_list_fmap. eauto.
Qed.
Lemma in_degree_one G n p q : in_degree G n = 1 -> n ∈ outs_of G p -> n ∈ outs_of G q -> p = q.
Proof.
  unfold in_degree. intros H Hp%elem_edges Hq%elem_edges. destruct (filter _ (edges G)) as [|e1 [|e2 l]] eqn:E; [done| |done].
  assert (Hp' : (p, n) ∈ filter (fun e => e.2 = n) (edges G)) by by apply elem_of_list_filter. assert (Hq' : (q, n) ∈ filter (fun e => e.2 = n) (edges G)) by by apply elem_of_list_filter.
  rewrite E in Hp', Hq'. apply elem_of_list_singleton in Hp', Hq'. congruence.
Qed.

  Lemma K_out cx G c e x R z : inv cx G c e x R -> z ∈ R -> z <> x -> K_of cx e x !! z = None.
  Proof.
    intros I H1 H2. pose proof (inv_ctx _ _ _ _ _ _ I) as Hx. destruct cx as [|K E X s]; [apply lookup_empty|]. cbn. rewrite lookup_insert_ne by done.
    destruct (K !! z) as [v|] eqn:E1; [|done]. destruct Hx as (_ & _ & _ & _ & _ & _ & Hk). by destruct (Hk _ _ E1).
  Qed.
  Lemma K_value cx G c e x R k v : inv cx G c e x R -> K_of cx e x !! k = Some v -> k = x /\ v = e \/ k ∉ R /\ v ∉ R /\ k < c /\ v < c.
  Proof.
    intros I. pose proof (inv_ctx _ _ _ _ _ _ I) as Hx. destruct cx as [|K E X s]; cbn; [by rewrite lookup_empty|]. intros [(-> & ->)|(Hne & Hk)]%lookup_insert_Some; [by left|].
    right. destruct Hx as (_ & _ & _ & _ & _ & _ & Hx). by apply Hx.
  Qed.
Section Collapse.
  Context (cx : ctx) (G G' : graph) (c e x a : nat) (R D : gset nat) (oc : list nat) (I : inv cx G c e x R).
  Context (HD : forall d, d ∈ D -> d ∈ R) (Ha : a ∈ D) (C1 : forall p q, q ∈ outs_of G p -> q ∈ D -> q <> a -> p = a).
  Context (D1 : forall d, d ∈ D -> d <> a -> d ∈ outs_of G a) (Hxa : x <> a).
  Context (Hc' : is_Some (G' !! c)) (Hoc : outs_of G' c = oc) (Hz' : forall z, z ∉ D -> z <> c -> G' !! z = rdn a c <$> G !! z) (Hd' : forall d, d ∈ D -> G' !! d = None).
  Context (O1 : forall d q, d ∈ D -> q ∈ outs_of G d -> (q ∈ D /\ q <> a) \/ redirect a c q ∈ oc).
  Context (O2 : forall w, w ∈ oc -> exists d q, d ∈ D /\ q ∈ outs_of G d /\ w = redirect a c q /\ (q ∉ D \/ q = a)).
  Context (O3 : x ∈ D -> oc = redirect a c <$> outs_of G x).
  Definition e' : nat := redirect a c e.
  Definition x' : nat := if decide (x ∈ D) then c else x.
  Definition R' : gset nat := (R ∖ D) ∪ {[c]}.
  Lemma out_lt p q : q ∈ outs_of G p -> p < c /\ q < c.
  Proof using I. intros (nd & H & Hq)%elem_outs. destruct (inv_lt _ _ _ _ _ _ I _ _ H). eauto. Qed.
  Lemma R_lt z : z ∈ R -> z < c.
  Proof using I. intros H. destruct (inv_dom _ _ _ _ _ _ I _ H) as (nd & Hn). apply (inv_lt _ _ _ _ _ _ I) in Hn. tauto. Qed.
  Lemma c_not_D : c ∉ D.
  Proof using I HD. intros H%HD%R_lt. by apply Nat.lt_irrefl in H. Qed.
  Lemma elem_R' z : z ∈ R' <-> (z ∈ R /\ z ∉ D) \/ z = c.
  Proof using. unfold R'. rewrite elem_of_union, elem_of_difference, elem_of_singleton. done. Qed.
  Lemma e_D : e ∈ D -> e = a.
  Proof using I D1 HD Ha. intros H. destruct (decide (e = a)) as [|Hne]; [done|]. exfalso. apply (inv_top _ _ _ _ _ _ I a e); [by apply D1|by apply HD|done]. Qed.
  Lemma outs_z z : z ∉ D -> z <> c -> outs_of G' z = redirect a c <$> outs_of G z.
  Proof using Hz'. intros H1 H2. unfold outs_of. rewrite Hz' by done. by destruct (G !! z). Qed.
  Lemma outs_d d : d ∈ D -> outs_of G' d = [].
  Proof using Hd'. intros H. unfold outs_of. by rewrite Hd'. Qed.
  Lemma R'_redirect q : q ∈ R -> (q ∉ D \/ q = a) -> redirect a c q ∈ R'.
  Proof using. intros H1 H2. apply elem_R'. unfold redirect. case_decide; [by right|]. left. tauto. Qed.
  Lemma outs_other p q' : q' ∈ outs_of G' p -> p <> c -> exists q, q' = redirect a c q /\ q ∈ outs_of G p /\ p ∉ D /\ (q ∉ D \/ q = a).
  Proof using Hd' Hz' C1 Ha.
    intros H Hp. destruct (decide (p ∈ D)) as [HpD|HpD]; [rewrite outs_d in H by done; by apply elem_of_nil in H|].
    rewrite outs_z in H by done. apply elem_of_list_fmap in H as (q & -> & Hq). exists q. split; [done|]. split; [done|]. split; [done|].
    destruct (decide (q ∈ D)) as [HqD|]; [|by left]. right. destruct (decide (q = a)) as [|Hqa]; [done|]. exfalso. apply HpD. rewrite (C1 p q); done.
  Qed.
  Lemma a_lt : a < c. Proof using I HD Ha. by apply R_lt, HD. Qed.
  Lemma redirect_e q : q < c -> (q ∉ D \/ q = a) -> redirect a c q = e' -> q = e.
  Proof using All.
    unfold e', redirect. intros Hq HqD. repeat case_decide; subst; [done| |lia|done]. intros. pose proof (R_lt _ (inv_e _ _ _ _ _ _ I)). lia.
  Qed.
  Lemma x'_R' : x' ∈ R'.
  Proof using I. apply elem_R'. unfold x'. case_decide; [by right|]. left. split; [apply I|done]. Qed.
  Lemma collapse_in p q : q ∈ outs_of G' p -> p ∉ R' -> q ∈ R' -> q = e'.
  Proof using All.
    intros Hq Hp HqR. assert (Hpc : p <> c) by (intros ->; apply Hp, elem_R'; by right). destruct (outs_other p q Hq Hpc) as (q0 & -> & Hq0 & HpD & HqD).
    assert (HpR : p ∉ R) by (intros ?; apply Hp, elem_R'; by left). destruct (out_lt _ _ Hq0) as (_ & Hlt).
    assert (Hq0R : q0 ∈ R). { destruct HqD as [HqD| ->]; [|by apply HD]. unfold redirect in HqR. case_decide; [subst; by apply HD|]. apply elem_R' in HqR as [[? _]|?]; [done|lia]. }
    rewrite (inv_in _ _ _ _ _ _ I p q0 Hq0 HpR Hq0R). done.
  Qed.
  Lemma collapse_out p q : q ∈ outs_of G' p -> p ∈ R' -> q ∉ R' -> p = x'.
  Proof using All.
    intros Hq Hp HqR. destruct (decide (p = c)) as [->|Hpc].
    - rewrite Hoc in Hq. apply O2 in Hq as (d & q0 & Hd & Hq0 & -> & HqD). assert (q0 ∉ R) by (intros ?; by apply HqR, R'_redirect).
      pose proof (inv_out _ _ _ _ _ _ I d q0 Hq0 (HD d Hd) ltac:(done)). unfold x'. rewrite decide_True; [done|]. congruence.
    - destruct (outs_other p q Hq Hpc) as (q0 & -> & Hq0 & HpD & HqD). apply elem_R' in Hp as [[Hp _]|Hp]; [|done]. assert (q0 ∉ R) by (intros ?; by apply HqR, R'_redirect).
      pose proof (inv_out _ _ _ _ _ _ I p q0 Hq0 Hp ltac:(done)). unfold x'. rewrite decide_False; [done|]. congruence.
  Qed.
  Lemma collapse_top p q : q ∈ outs_of G' p -> p ∈ R' -> q <> e'.
  Proof using All.
    intros Hq Hp He. destruct (decide (p = c)) as [->|Hpc].
    - rewrite Hoc in Hq. apply O2 in Hq as (d & q0 & Hd & Hq0 & -> & HqD). destruct (out_lt _ _ Hq0). apply redirect_e in He; [|done|done]. subst q0.
      by apply (inv_top _ _ _ _ _ _ I d e Hq0); [apply HD|].
    - destruct (outs_other p q Hq Hpc) as (q0 & -> & Hq0 & HpD & HqD). apply elem_R' in Hp as [[Hp _]|Hp]; [|done]. destruct (out_lt _ _ Hq0). apply redirect_e in He; [|done|done]. subst q0.
      by apply (inv_top _ _ _ _ _ _ I p e Hq0).
  Qed.
  Lemma outs_x : outs_of G' x' = redirect a c <$> outs_of G x /\ forall q, q ∈ outs_of G x -> q ∉ D \/ q = a.
  Proof using All.
    split.
    - unfold x'. case_decide as H; [rewrite Hoc; by apply O3|]. apply outs_z; [done|]. pose proof (R_lt _ (inv_x _ _ _ _ _ _ I)). lia.
    - intros q Hq. destruct (decide (q ∈ D)); [|by left]. right. destruct (decide (q = a)); [done|]. exfalso. by apply Hxa, (C1 x q).
  Qed.
  Lemma collapse_filter : filter (fun m => m ∉ R') (outs_of G' x') = filter (fun m => m ∉ R) (outs_of G x).
  Proof using All.
    destruct outs_x as (-> & Hq). assert (Hlt : forall q, q ∈ outs_of G x -> q < c) by (intros q H; apply out_lt in H; tauto). revert Hq Hlt.
    generalize (outs_of G x); intros l0; induction l0 as [|m l IH]; intros Hq Hlt; [done|]. rewrite fmap_cons.
    assert (Hm : redirect a c m ∉ R' <-> m ∉ R).
    { split; intros H1 H2; apply H1; [apply R'_redirect; [done|apply Hq; by left]|]. unfold redirect in H2. case_decide; [subst; by apply HD|]. apply elem_R' in H2 as [[? _]| ->]; [done|].
      specialize (Hlt c ltac:(by left)). lia. }
    specialize (IH (fun q H => Hq q (elem_of_list_further _ _ _ H)) (fun q H => Hlt q (elem_of_list_further _ _ _ H))). destruct (decide (m ∈ R)) as [HmR|HmR].
    - rewrite !filter_cons_False; [exact IH| |]; tauto.
    - rewrite !filter_cons_True by tauto. f_equal; [|exact IH]. unfold redirect. case_decide; [subst; by destruct HmR; apply HD|done].
  Qed.
  Lemma collapse_reach z : rtc (inside G R) z x -> z ∈ R -> rtc (inside G' R') (if decide (z ∈ D) then c else z) x'.
  Proof using All.
    intros H. remember x as x0 eqn:Ex in H at 1. induction H as [z|z w x0 (Hw & Hz & HwR) _ IH]; intros HzR.
    - rewrite Ex. apply rtc_refl.
    - specialize (IH Ex HwR). destruct (decide (z ∈ D)) as [HzD|HzD].
      + destruct (O1 z w HzD Hw) as [(HwD & Hwa)|Hw']; [by rewrite decide_True in IH|].
        eapply rtc_l; [|exact IH]. unfold inside. rewrite Hoc. assert (Hr : redirect a c w = if decide (w ∈ D) then c else w).
        { unfold redirect. destruct (decide (w = a)) as [->|Hwa]; [by rewrite decide_True|]. destruct (decide (w ∈ D)) as [HwD|]; [|done]. exfalso.
          apply O2 in Hw' as (d & q & Hd & Hq & Heq & HqD). destruct (out_lt _ _ Hq). destruct (out_lt _ _ Hw). rewrite (redirect_ne a c w Hwa) in Heq. unfold redirect in Heq. destruct (decide (q = a)); [lia|]. subst w. destruct HqD; done. }
        rewrite <-Hr. split; [done|]. split; [apply elem_R'; by right|]. rewrite Hr. destruct (decide (w ∈ D)); apply elem_R'; [by right|by left].
      + assert (Hw' : redirect a c w ∈ outs_of G' z). { rewrite outs_z; [by apply elem_of_list_fmap_1|done|]. pose proof (R_lt _ HzR). lia. }
        assert (HwD : w ∈ D -> w = a). { intros HwD. destruct (decide (w = a)); [done|]. exfalso. apply HzD. by rewrite (C1 z w). }
        eapply rtc_l; [|exact IH]. assert (Hr : redirect a c w = if decide (w ∈ D) then c else w).
        { unfold redirect. destruct (decide (w = a)) as [->|Hwa]; [by rewrite decide_True|]. rewrite decide_False; [done|tauto]. }
        rewrite <-Hr. split; [done|]. split; [apply elem_R'; by left|]. rewrite Hr. destruct (decide (w ∈ D)); apply elem_R'; [by right|by left].
  Qed.
  Lemma collapse_ctx : match cx with
            | Top => outs_of G' x' = []
            | Nested K E X s => filter (fun m => m ∉ R') (outs_of G' x') = [s] /\ (forall z, z ∈ R' -> rtc (inside G' R') z x') /\
                E ∉ R' /\ X ∉ R' /\ E < S c /\ X < S c /\ forall k v, K !! k = Some v -> k ∉ R' /\ v ∉ R' /\ k < S c /\ v < S c
            end.
  Proof using All.
    pose proof (inv_ctx _ _ _ _ _ _ I) as Hx. assert (Hno : forall z, z ∉ R -> z < c -> z ∉ R') by (intros z H1 H2 [[? _]| ->]%elem_R'; [done|lia]).
    pose proof outs_x as (Hox & _). pose proof collapse_filter as Hcf. pose proof collapse_reach as Hcr. pose proof elem_R' as Her. destruct cx as [|K E X s].
    - rewrite Hox. by rewrite Hx.
    - destruct Hx as (H1 & H2 & H3 & H4 & H5 & H6 & H7). rewrite Hcf. split; [done|]. split.
      + intros z [[HzR HzD]| ->]%Her.
        * pose proof (Hcr z (H2 z HzR) HzR) as Hr. by rewrite decide_False in Hr.
        * pose proof (Hcr a (H2 a (HD a Ha)) (HD a Ha)) as Hr. by rewrite decide_True in Hr.
      + split; [by apply Hno|]. split; [by apply Hno|]. split; [lia|]. split; [lia|]. intros k v Hk. destruct (H7 k v Hk) as (G1 & G2 & G3 & G4).
        split; [by apply Hno|]. split; [by apply Hno|]. lia.
  Qed.
  Lemma collapse_frame : frame G c e R G' (S c) e' R'.
  Proof using All.
    split; [lia| | |].
    - unfold e', redirect. case_decide; [by right|by left].
    - intros z [[? _]| ->]%elem_R'; [by left|by right].
    - intros z Hz. assert (Hzc : z <> c) by (intros ->; apply Hz, elem_R'; by right). case_decide as HzR.
      + apply Hd'. destruct (decide (z ∈ D)); [done|]. exfalso. apply Hz, elem_R'. by left.
      + rewrite Hz' by (try done; intros ?; by apply HzR, HD). destruct (G !! z) as [nd|] eqn:E; [|done]. cbn. f_equal. unfold rdn. f_equal. apply list_fmap_ext. intros i m Hm.
        assert (Hq : m ∈ outs_of G z) by (rewrite (outs_of_some _ _ _ E); by eapply elem_of_list_lookup_2).
        unfold e'. destruct (decide (m ∈ R)) as [HmR|HmR].
        * pose proof (inv_in _ _ _ _ _ _ I z m Hq HzR HmR) as ->. unfold redirect at 2. by rewrite decide_True.
        * assert (m <> a) by (intros ->; by apply HmR, HD). assert (m <> e) by (intros ->; apply HmR, I). by rewrite !redirect_ne.
  Qed.
  Lemma collapse_lt : (forall m, m ∈ oc -> m < S c) -> forall n nd, G' !! n = Some nd -> n < S c /\ forall m, m ∈ outs nd -> m < S c.
  Proof using All.
    intros Hlt n nd Hn. destruct (decide (n = c)) as [->|Hnc]; [rewrite (outs_of_some _ _ _ Hn) in Hoc; rewrite Hoc; split; [lia|done]|].
    destruct (decide (n ∈ D)) as [HnD|HnD]; [by rewrite Hd' in Hn|]. rewrite Hz' in Hn by done. destruct (G !! n) as [nd0|] eqn:E; [|done]. injection Hn as <-.
    destruct (inv_lt _ _ _ _ _ _ I _ _ E) as (H1 & H2). split; [lia|]. intros m (m0 & -> & Hm)%elem_of_list_fmap. specialize (H2 _ Hm). unfold redirect. case_decide; lia.
  Qed.
  Lemma collapse_inv : (forall n t o, look G' (K_of cx e' x') n = Some (t, o) -> tree_ok None t /\ (2 <= length o -> exists p, ends_with t = Some p)) ->
    inv cx G' (S c) e' x' R'.
  Proof using All.
    intros Hgood. split; [apply collapse_lt| | |apply x'_R'|apply collapse_in|apply collapse_out|apply collapse_top|apply collapse_ctx|done].
    - intros m (d & q & _ & Hq & -> & _)%O2. apply out_lt in Hq. unfold redirect. case_decide; lia.
    - intros n [[H1 H2]| ->]%elem_R'; [|done]. rewrite Hz'; [|done|pose proof (R_lt _ H1); lia]. destruct (inv_dom _ _ _ _ _ _ I _ H1) as (nd & ->). by eexists.
    - apply elem_R'. unfold e', redirect. case_decide; [by right|]. left. split; [apply I|]. intros HeD. by apply e_D in HeD.
  Qed.
  (** the graph with the repetition edges *)
  Lemma fmap_put (f : nat -> nat) v o : f <$> put v o = put (f v) (f <$> o).
  Proof using. by destruct o. Qed.
  Lemma look_z z : z ∉ D -> z <> c -> look G' (K_of cx e' x') z = rd a c <$> look G (K_of cx e x) z.
  Proof using All.
    intros HzD Hzc. unfold look. rewrite Hz' by done. destruct (G !! z) as [nd|] eqn:E; [|done]. cbn. f_equal. unfold rd. cbn. f_equal.
    assert (Hk : K_of cx e' x' !! z = redirect a c <$> K_of cx e x !! z).
    { pose proof (inv_ctx _ _ _ _ _ _ I) as Hx. destruct cx as [|K E1 X s]; [cbn [K_of]; by rewrite !lookup_empty|]. destruct Hx as (_ & _ & _ & _ & _ & _ & Hx). cbn [K_of].
      destruct (decide (z = x)) as [->|Hzx].
      - unfold x'. rewrite decide_False by done. rewrite !lookup_insert. done.
      - rewrite (lookup_insert_ne K x z) by done. rewrite lookup_insert_ne by (unfold x'; case_decide; congruence). destruct (K !! z) as [v|] eqn:Ez; [|done]. cbn.
        destruct (Hx _ _ Ez) as (_ & Hv & _). rewrite redirect_ne; [done|]. intros ->. by apply Hv, HD. }
    rewrite Hk. destruct (K_of cx e x !! z); cbn; [by rewrite fmap_put|done].
  Qed.
  Lemma look_edge p t o q : look G (K_of cx e x) p = Some (t, o) -> q ∈ o -> q ∈ outs_of G p \/ (K_of cx e x !! p = Some q).
  Proof using.
    unfold look. destruct (G !! p) as [nd|] eqn:E; [|done]. rewrite (outs_of_some _ _ _ E). intros [= <- <-]. destruct (K_of cx e x !! p) as [v|]; [|by left].
    destruct (outs nd) as [|s l]; cbn; rewrite ?elem_of_cons; rewrite ?elem_of_nil; [intros [->|?]; [by right|done]|]. intros [->|[->|?]]; [left; by left|by right|left; by right].
  Qed.
  Lemma look_edge_D p t o q : look G (K_of cx e x) p = Some (t, o) -> q ∈ o -> q ∈ D -> q <> a -> p = a.
  Proof using All.
    intros Hp Hq HqD Hqa. destruct (look_edge _ _ _ _ Hp Hq) as [H|H]; [by apply (C1 p q)|]. exfalso.
    destruct (K_value _ _ _ _ _ _ _ _ I H) as [(_ & ->)|(_ & HqR & _)]; [by apply e_D in HqD|]. by apply HqR, HD.
  Qed.
  Lemma look_edge_c p t o : look G (K_of cx e x) p = Some (t, o) -> c ∉ o.
  Proof using All.
    intros Hp Hq. destruct (look_edge _ _ _ _ Hp Hq) as [H|H]; [apply out_lt in H; lia|]. destruct (K_value _ _ _ _ _ _ _ _ I H) as [(_ & He)|(_ & _ & _ & ?)]; [|lia].
    pose proof (R_lt _ (inv_e _ _ _ _ _ _ I)). lia.
  Qed.
  Lemma look_c : look G (K_of cx e x) c = None.
  Proof using All. unfold look. destruct (G !! c) as [nd|] eqn:E; [|done]. destruct (inv_lt _ _ _ _ _ _ I _ _ E). lia. Qed.
  Lemma X_facts : X_of cx x <> a /\ X_of cx x <> c /\ X_of cx x' = (if decide (X_of cx x ∈ D) then c else X_of cx x).
  Proof using All.
    pose proof (inv_ctx _ _ _ _ _ _ I) as Hx. pose proof (R_lt _ (inv_x _ _ _ _ _ _ I)). destruct cx as [|K E1 X s]; cbn [X_of].
    - split; [done|]. split; [lia|]. done.
    - destruct Hx as (_ & _ & _ & HX & _ & HXc & _). assert (X ∉ D) by (intros ?; by apply HX, HD). split; [by intros ->|]. split; [lia|]. by rewrite decide_False.
  Qed.
  Lemma E_facts : E_of cx e <> c /\ (E_of cx e ∈ D -> E_of cx e = a) /\ E_of cx e' = redirect a c (E_of cx e).
  Proof using All.
    pose proof (inv_ctx _ _ _ _ _ _ I) as Hx. pose proof (R_lt _ (inv_e _ _ _ _ _ _ I)). pose proof e_D as HeD. destruct cx as [|K E1 X s]; cbn [E_of].
    - split; [lia|]. split; [exact HeD|done].
    - destruct Hx as (_ & _ & HE & _ & HEc & _). assert (E1 ∉ D) by (intros ?; by apply HE, HD). split; [lia|]. split; [done|]. rewrite redirect_ne; [done|]. by intros ->.
  Qed.
End Collapse.
